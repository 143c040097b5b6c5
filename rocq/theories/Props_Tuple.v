(** * C20: tuples of two to eight components.

    Generated text: one statement per arity, as the code has one instance per arity
    (src/tuple.rs:61-67, 133-139).  The components are arbitrary decoders/encoders that meet the
    contracts of [Spec]; only the last decoder may depend on the end of the stream. *)
From Coq Require Import Lia ZifyBool ZifyNat ZifyN.
From Verif Require Import ObserveProofs Tuple Props_Comb.
Set Implicit Arguments.

Lemma isize_app : forall a b, (len (a ++ b) <= isize_max)%N -> (len a <= isize_max)%N.
Proof. intros a b. rewrite len_app. lia. Qed.
Ltac parts_dec := repeat (apply dp_snoc_ok || apply dp_one_ok).
Ltac parts_enc := repeat (apply ep_snoc_ok || apply ep_one_ok).
Ltac tuple_dec_go :=
  first
    [ apply pair_parses; [assumption| |eassumption|eassumption]; solve [discriminate|assumption]
    | apply tuple_snoc_parses;
      [solve [parts_dec]|assumption|solve [discriminate|assumption]|
       tuple_dec_go|eassumption] ].
(** The lengths of all prefixes. *)
Ltac prefixes :=
  repeat match goal with
    | H : (len (?a ++ _) <= isize_max)%N |- _ =>
        lazymatch goal with
        | K : (len a <= isize_max)%N |- _ => fail
        | _ => pose proof (isize_app _ _ H)
        end
    end.
Ltac unpair := repeat match goal with x : (_ * _)%type |- _ => destruct x end; cbn [fst snd] in *.
Ltac tuple_dec :=
  intros; repeat rewrite app_assoc in *; apply parses_delivers; prefixes;
  eapply parses_post; [|tuple_dec_go]; cbn [fst snd]; intros; unpair; tauto.
Ltac tuple_enc_go :=
  first
    [ apply pair_encodes; eassumption
    | eapply snoc_encodes; [solve [parts_enc]|tuple_enc_go|eassumption] ].
Ltac tuple_enc_fmt :=
  split; [assumption|]; eexists _, _; split; [reflexivity|]; split; [|eassumption];
  first [eassumption|tuple_enc_fmt].
Lemma sends_post : forall S I (E : Encoder S I) s i w (P Q : S -> Prop),
  (forall s, P s -> Q s) -> sends E s i w P -> sends E s i w Q.
Proof.
  intros S I E s i w P Q PQ (f0 & H). exists f0. intros fuel bufs F.
  destruct (H fuel bufs F) as (s1 & s2 & A & B & C & D). exists s1, s2.
  split; auto. split; auto. split; auto. intros X. destruct (D X); auto.
Qed.
Ltac tuple_enc :=
  intros; repeat rewrite app_assoc in *; prefixes;
  eapply sends_post; [|eapply encodes_sends; [tuple_enc_go| |tuple_enc_fmt]];
  cbn [fst snd]; [intros; unpair; tauto|tauto].

(** ** Decoders *)
Theorem C20_tuple2_decoder : forall S0 S1 I0 I1 m
    (D0 : Decoder S0 I0) (D1 : Decoder S1 I1)
    (P0 : S0 -> Prop) (P1 : S1 -> Prop) s0 s1 w0 w1 i0 i1,
  parses D0 SD P0 s0 w0 i0 ->
  parses D1 m P1 s1 w1 i1 ->
  (len (w0 ++ w1) <= isize_max)%N -> (m = ToEos -> dec_idle D1 s1 = false) ->
  delivers (tuple2_decoder D0 D1) m (s0, s1)
    (w0 ++ w1) (i0, i1)
    (fun '(x0, x1) => P0 x0 /\ P1 x1).
Proof. tuple_dec. Qed.
Print Assumptions C20_tuple2_decoder.
Theorem C20_tuple3_decoder : forall S0 S1 S2 I0 I1 I2 m
    (D0 : Decoder S0 I0) (D1 : Decoder S1 I1) (D2 : Decoder S2 I2)
    (P0 : S0 -> Prop) (P1 : S1 -> Prop) (P2 : S2 -> Prop) s0 s1 s2 w0 w1 w2 i0 i1 i2,
  parses D0 SD P0 s0 w0 i0 ->
  parses D1 SD P1 s1 w1 i1 ->
  parses D2 m P2 s2 w2 i2 ->
  (len (w0 ++ w1 ++ w2) <= isize_max)%N -> (m = ToEos -> dec_idle D2 s2 = false) ->
  delivers (tuple3_decoder D0 D1 D2) m (s0, s1, s2)
    (w0 ++ w1 ++ w2) (i0, i1, i2)
    (fun '(x0, x1, x2) => P0 x0 /\ P1 x1 /\ P2 x2).
Proof. tuple_dec. Qed.
Print Assumptions C20_tuple3_decoder.
Theorem C20_tuple4_decoder : forall S0 S1 S2 S3 I0 I1 I2 I3 m
    (D0 : Decoder S0 I0) (D1 : Decoder S1 I1) (D2 : Decoder S2 I2) (D3 : Decoder S3 I3)
    (P0 : S0 -> Prop) (P1 : S1 -> Prop) (P2 : S2 -> Prop) (P3 : S3 -> Prop) s0 s1 s2 s3 w0 w1 w2 w3 i0 i1 i2 i3,
  parses D0 SD P0 s0 w0 i0 ->
  parses D1 SD P1 s1 w1 i1 ->
  parses D2 SD P2 s2 w2 i2 ->
  parses D3 m P3 s3 w3 i3 ->
  (len (w0 ++ w1 ++ w2 ++ w3) <= isize_max)%N -> (m = ToEos -> dec_idle D3 s3 = false) ->
  delivers (tuple4_decoder D0 D1 D2 D3) m (s0, s1, s2, s3)
    (w0 ++ w1 ++ w2 ++ w3) (i0, i1, i2, i3)
    (fun '(x0, x1, x2, x3) => P0 x0 /\ P1 x1 /\ P2 x2 /\ P3 x3).
Proof. tuple_dec. Qed.
Print Assumptions C20_tuple4_decoder.
Theorem C20_tuple5_decoder : forall S0 S1 S2 S3 S4 I0 I1 I2 I3 I4 m
    (D0 : Decoder S0 I0) (D1 : Decoder S1 I1) (D2 : Decoder S2 I2) (D3 : Decoder S3 I3) (D4 : Decoder S4 I4)
    (P0 : S0 -> Prop) (P1 : S1 -> Prop) (P2 : S2 -> Prop) (P3 : S3 -> Prop) (P4 : S4 -> Prop) s0 s1 s2 s3 s4 w0 w1 w2 w3 w4 i0 i1 i2 i3 i4,
  parses D0 SD P0 s0 w0 i0 ->
  parses D1 SD P1 s1 w1 i1 ->
  parses D2 SD P2 s2 w2 i2 ->
  parses D3 SD P3 s3 w3 i3 ->
  parses D4 m P4 s4 w4 i4 ->
  (len (w0 ++ w1 ++ w2 ++ w3 ++ w4) <= isize_max)%N -> (m = ToEos -> dec_idle D4 s4 = false) ->
  delivers (tuple5_decoder D0 D1 D2 D3 D4) m (s0, s1, s2, s3, s4)
    (w0 ++ w1 ++ w2 ++ w3 ++ w4) (i0, i1, i2, i3, i4)
    (fun '(x0, x1, x2, x3, x4) => P0 x0 /\ P1 x1 /\ P2 x2 /\ P3 x3 /\ P4 x4).
Proof. tuple_dec. Qed.
Print Assumptions C20_tuple5_decoder.
Theorem C20_tuple6_decoder : forall S0 S1 S2 S3 S4 S5 I0 I1 I2 I3 I4 I5 m
    (D0 : Decoder S0 I0) (D1 : Decoder S1 I1) (D2 : Decoder S2 I2) (D3 : Decoder S3 I3) (D4 : Decoder S4 I4) (D5 : Decoder S5 I5)
    (P0 : S0 -> Prop) (P1 : S1 -> Prop) (P2 : S2 -> Prop) (P3 : S3 -> Prop) (P4 : S4 -> Prop) (P5 : S5 -> Prop) s0 s1 s2 s3 s4 s5 w0 w1 w2 w3 w4 w5 i0 i1 i2 i3 i4 i5,
  parses D0 SD P0 s0 w0 i0 ->
  parses D1 SD P1 s1 w1 i1 ->
  parses D2 SD P2 s2 w2 i2 ->
  parses D3 SD P3 s3 w3 i3 ->
  parses D4 SD P4 s4 w4 i4 ->
  parses D5 m P5 s5 w5 i5 ->
  (len (w0 ++ w1 ++ w2 ++ w3 ++ w4 ++ w5) <= isize_max)%N -> (m = ToEos -> dec_idle D5 s5 = false) ->
  delivers (tuple6_decoder D0 D1 D2 D3 D4 D5) m (s0, s1, s2, s3, s4, s5)
    (w0 ++ w1 ++ w2 ++ w3 ++ w4 ++ w5) (i0, i1, i2, i3, i4, i5)
    (fun '(x0, x1, x2, x3, x4, x5) => P0 x0 /\ P1 x1 /\ P2 x2 /\ P3 x3 /\ P4 x4 /\ P5 x5).
Proof. tuple_dec. Qed.
Print Assumptions C20_tuple6_decoder.
Theorem C20_tuple7_decoder : forall S0 S1 S2 S3 S4 S5 S6 I0 I1 I2 I3 I4 I5 I6 m
    (D0 : Decoder S0 I0) (D1 : Decoder S1 I1) (D2 : Decoder S2 I2) (D3 : Decoder S3 I3) (D4 : Decoder S4 I4) (D5 : Decoder S5 I5) (D6 : Decoder S6 I6)
    (P0 : S0 -> Prop) (P1 : S1 -> Prop) (P2 : S2 -> Prop) (P3 : S3 -> Prop) (P4 : S4 -> Prop) (P5 : S5 -> Prop) (P6 : S6 -> Prop) s0 s1 s2 s3 s4 s5 s6 w0 w1 w2 w3 w4 w5 w6 i0 i1 i2 i3 i4 i5 i6,
  parses D0 SD P0 s0 w0 i0 ->
  parses D1 SD P1 s1 w1 i1 ->
  parses D2 SD P2 s2 w2 i2 ->
  parses D3 SD P3 s3 w3 i3 ->
  parses D4 SD P4 s4 w4 i4 ->
  parses D5 SD P5 s5 w5 i5 ->
  parses D6 m P6 s6 w6 i6 ->
  (len (w0 ++ w1 ++ w2 ++ w3 ++ w4 ++ w5 ++ w6) <= isize_max)%N -> (m = ToEos -> dec_idle D6 s6 = false) ->
  delivers (tuple7_decoder D0 D1 D2 D3 D4 D5 D6) m (s0, s1, s2, s3, s4, s5, s6)
    (w0 ++ w1 ++ w2 ++ w3 ++ w4 ++ w5 ++ w6) (i0, i1, i2, i3, i4, i5, i6)
    (fun '(x0, x1, x2, x3, x4, x5, x6) => P0 x0 /\ P1 x1 /\ P2 x2 /\ P3 x3 /\ P4 x4 /\ P5 x5 /\ P6 x6).
Proof. tuple_dec. Qed.
Print Assumptions C20_tuple7_decoder.
Theorem C20_tuple8_decoder : forall S0 S1 S2 S3 S4 S5 S6 S7 I0 I1 I2 I3 I4 I5 I6 I7 m
    (D0 : Decoder S0 I0) (D1 : Decoder S1 I1) (D2 : Decoder S2 I2) (D3 : Decoder S3 I3) (D4 : Decoder S4 I4) (D5 : Decoder S5 I5) (D6 : Decoder S6 I6) (D7 : Decoder S7 I7)
    (P0 : S0 -> Prop) (P1 : S1 -> Prop) (P2 : S2 -> Prop) (P3 : S3 -> Prop) (P4 : S4 -> Prop) (P5 : S5 -> Prop) (P6 : S6 -> Prop) (P7 : S7 -> Prop) s0 s1 s2 s3 s4 s5 s6 s7 w0 w1 w2 w3 w4 w5 w6 w7 i0 i1 i2 i3 i4 i5 i6 i7,
  parses D0 SD P0 s0 w0 i0 ->
  parses D1 SD P1 s1 w1 i1 ->
  parses D2 SD P2 s2 w2 i2 ->
  parses D3 SD P3 s3 w3 i3 ->
  parses D4 SD P4 s4 w4 i4 ->
  parses D5 SD P5 s5 w5 i5 ->
  parses D6 SD P6 s6 w6 i6 ->
  parses D7 m P7 s7 w7 i7 ->
  (len (w0 ++ w1 ++ w2 ++ w3 ++ w4 ++ w5 ++ w6 ++ w7) <= isize_max)%N -> (m = ToEos -> dec_idle D7 s7 = false) ->
  delivers (tuple8_decoder D0 D1 D2 D3 D4 D5 D6 D7) m (s0, s1, s2, s3, s4, s5, s6, s7)
    (w0 ++ w1 ++ w2 ++ w3 ++ w4 ++ w5 ++ w6 ++ w7) (i0, i1, i2, i3, i4, i5, i6, i7)
    (fun '(x0, x1, x2, x3, x4, x5, x6, x7) => P0 x0 /\ P1 x1 /\ P2 x2 /\ P3 x3 /\ P4 x4 /\ P5 x5 /\ P6 x6 /\ P7 x7).
Proof. tuple_dec. Qed.
Print Assumptions C20_tuple8_decoder.
(** ** Encoders *)
Theorem C20_tuple2_encoder : forall S0 S1 I0 I1
    (E0 : Encoder S0 I0) (E1 : Encoder S1 I1)
    (F0 : format I0) (P0 Q0 : S0 -> Prop) (F1 : format I1) (P1 Q1 : S1 -> Prop)
    s0 s1 w0 w1 i0 i1,
  encodes E0 F0 P0 Q0 -> P0 s0 -> F0 w0 i0 ->
  encodes E1 F1 P1 Q1 -> P1 s1 -> F1 w1 i1 ->
  (len (w0 ++ w1) <= isize_max)%N ->
  sends (tuple2_encoder E0 E1) (s0, s1)
    (i0, i1) (w0 ++ w1)
    (fun '(x0, x1) => Q0 x0 /\ Q1 x1).
Proof. tuple_enc. Qed.
Print Assumptions C20_tuple2_encoder.
Theorem C20_tuple3_encoder : forall S0 S1 S2 I0 I1 I2
    (E0 : Encoder S0 I0) (E1 : Encoder S1 I1) (E2 : Encoder S2 I2)
    (F0 : format I0) (P0 Q0 : S0 -> Prop) (F1 : format I1) (P1 Q1 : S1 -> Prop) (F2 : format I2) (P2 Q2 : S2 -> Prop)
    s0 s1 s2 w0 w1 w2 i0 i1 i2,
  encodes E0 F0 P0 Q0 -> P0 s0 -> F0 w0 i0 ->
  encodes E1 F1 P1 Q1 -> P1 s1 -> F1 w1 i1 ->
  encodes E2 F2 P2 Q2 -> P2 s2 -> F2 w2 i2 ->
  (len (w0 ++ w1 ++ w2) <= isize_max)%N ->
  sends (tuple3_encoder E0 E1 E2) (s0, s1, s2)
    (i0, i1, i2) (w0 ++ w1 ++ w2)
    (fun '(x0, x1, x2) => Q0 x0 /\ Q1 x1 /\ Q2 x2).
Proof. tuple_enc. Qed.
Print Assumptions C20_tuple3_encoder.
Theorem C20_tuple4_encoder : forall S0 S1 S2 S3 I0 I1 I2 I3
    (E0 : Encoder S0 I0) (E1 : Encoder S1 I1) (E2 : Encoder S2 I2) (E3 : Encoder S3 I3)
    (F0 : format I0) (P0 Q0 : S0 -> Prop) (F1 : format I1) (P1 Q1 : S1 -> Prop) (F2 : format I2) (P2 Q2 : S2 -> Prop) (F3 : format I3) (P3 Q3 : S3 -> Prop)
    s0 s1 s2 s3 w0 w1 w2 w3 i0 i1 i2 i3,
  encodes E0 F0 P0 Q0 -> P0 s0 -> F0 w0 i0 ->
  encodes E1 F1 P1 Q1 -> P1 s1 -> F1 w1 i1 ->
  encodes E2 F2 P2 Q2 -> P2 s2 -> F2 w2 i2 ->
  encodes E3 F3 P3 Q3 -> P3 s3 -> F3 w3 i3 ->
  (len (w0 ++ w1 ++ w2 ++ w3) <= isize_max)%N ->
  sends (tuple4_encoder E0 E1 E2 E3) (s0, s1, s2, s3)
    (i0, i1, i2, i3) (w0 ++ w1 ++ w2 ++ w3)
    (fun '(x0, x1, x2, x3) => Q0 x0 /\ Q1 x1 /\ Q2 x2 /\ Q3 x3).
Proof. tuple_enc. Qed.
Print Assumptions C20_tuple4_encoder.
Theorem C20_tuple5_encoder : forall S0 S1 S2 S3 S4 I0 I1 I2 I3 I4
    (E0 : Encoder S0 I0) (E1 : Encoder S1 I1) (E2 : Encoder S2 I2) (E3 : Encoder S3 I3) (E4 : Encoder S4 I4)
    (F0 : format I0) (P0 Q0 : S0 -> Prop) (F1 : format I1) (P1 Q1 : S1 -> Prop) (F2 : format I2) (P2 Q2 : S2 -> Prop) (F3 : format I3) (P3 Q3 : S3 -> Prop) (F4 : format I4) (P4 Q4 : S4 -> Prop)
    s0 s1 s2 s3 s4 w0 w1 w2 w3 w4 i0 i1 i2 i3 i4,
  encodes E0 F0 P0 Q0 -> P0 s0 -> F0 w0 i0 ->
  encodes E1 F1 P1 Q1 -> P1 s1 -> F1 w1 i1 ->
  encodes E2 F2 P2 Q2 -> P2 s2 -> F2 w2 i2 ->
  encodes E3 F3 P3 Q3 -> P3 s3 -> F3 w3 i3 ->
  encodes E4 F4 P4 Q4 -> P4 s4 -> F4 w4 i4 ->
  (len (w0 ++ w1 ++ w2 ++ w3 ++ w4) <= isize_max)%N ->
  sends (tuple5_encoder E0 E1 E2 E3 E4) (s0, s1, s2, s3, s4)
    (i0, i1, i2, i3, i4) (w0 ++ w1 ++ w2 ++ w3 ++ w4)
    (fun '(x0, x1, x2, x3, x4) => Q0 x0 /\ Q1 x1 /\ Q2 x2 /\ Q3 x3 /\ Q4 x4).
Proof. tuple_enc. Qed.
Print Assumptions C20_tuple5_encoder.
Theorem C20_tuple6_encoder : forall S0 S1 S2 S3 S4 S5 I0 I1 I2 I3 I4 I5
    (E0 : Encoder S0 I0) (E1 : Encoder S1 I1) (E2 : Encoder S2 I2) (E3 : Encoder S3 I3) (E4 : Encoder S4 I4) (E5 : Encoder S5 I5)
    (F0 : format I0) (P0 Q0 : S0 -> Prop) (F1 : format I1) (P1 Q1 : S1 -> Prop) (F2 : format I2) (P2 Q2 : S2 -> Prop) (F3 : format I3) (P3 Q3 : S3 -> Prop) (F4 : format I4) (P4 Q4 : S4 -> Prop) (F5 : format I5) (P5 Q5 : S5 -> Prop)
    s0 s1 s2 s3 s4 s5 w0 w1 w2 w3 w4 w5 i0 i1 i2 i3 i4 i5,
  encodes E0 F0 P0 Q0 -> P0 s0 -> F0 w0 i0 ->
  encodes E1 F1 P1 Q1 -> P1 s1 -> F1 w1 i1 ->
  encodes E2 F2 P2 Q2 -> P2 s2 -> F2 w2 i2 ->
  encodes E3 F3 P3 Q3 -> P3 s3 -> F3 w3 i3 ->
  encodes E4 F4 P4 Q4 -> P4 s4 -> F4 w4 i4 ->
  encodes E5 F5 P5 Q5 -> P5 s5 -> F5 w5 i5 ->
  (len (w0 ++ w1 ++ w2 ++ w3 ++ w4 ++ w5) <= isize_max)%N ->
  sends (tuple6_encoder E0 E1 E2 E3 E4 E5) (s0, s1, s2, s3, s4, s5)
    (i0, i1, i2, i3, i4, i5) (w0 ++ w1 ++ w2 ++ w3 ++ w4 ++ w5)
    (fun '(x0, x1, x2, x3, x4, x5) => Q0 x0 /\ Q1 x1 /\ Q2 x2 /\ Q3 x3 /\ Q4 x4 /\ Q5 x5).
Proof. tuple_enc. Qed.
Print Assumptions C20_tuple6_encoder.
Theorem C20_tuple7_encoder : forall S0 S1 S2 S3 S4 S5 S6 I0 I1 I2 I3 I4 I5 I6
    (E0 : Encoder S0 I0) (E1 : Encoder S1 I1) (E2 : Encoder S2 I2) (E3 : Encoder S3 I3) (E4 : Encoder S4 I4) (E5 : Encoder S5 I5) (E6 : Encoder S6 I6)
    (F0 : format I0) (P0 Q0 : S0 -> Prop) (F1 : format I1) (P1 Q1 : S1 -> Prop) (F2 : format I2) (P2 Q2 : S2 -> Prop) (F3 : format I3) (P3 Q3 : S3 -> Prop) (F4 : format I4) (P4 Q4 : S4 -> Prop) (F5 : format I5) (P5 Q5 : S5 -> Prop) (F6 : format I6) (P6 Q6 : S6 -> Prop)
    s0 s1 s2 s3 s4 s5 s6 w0 w1 w2 w3 w4 w5 w6 i0 i1 i2 i3 i4 i5 i6,
  encodes E0 F0 P0 Q0 -> P0 s0 -> F0 w0 i0 ->
  encodes E1 F1 P1 Q1 -> P1 s1 -> F1 w1 i1 ->
  encodes E2 F2 P2 Q2 -> P2 s2 -> F2 w2 i2 ->
  encodes E3 F3 P3 Q3 -> P3 s3 -> F3 w3 i3 ->
  encodes E4 F4 P4 Q4 -> P4 s4 -> F4 w4 i4 ->
  encodes E5 F5 P5 Q5 -> P5 s5 -> F5 w5 i5 ->
  encodes E6 F6 P6 Q6 -> P6 s6 -> F6 w6 i6 ->
  (len (w0 ++ w1 ++ w2 ++ w3 ++ w4 ++ w5 ++ w6) <= isize_max)%N ->
  sends (tuple7_encoder E0 E1 E2 E3 E4 E5 E6) (s0, s1, s2, s3, s4, s5, s6)
    (i0, i1, i2, i3, i4, i5, i6) (w0 ++ w1 ++ w2 ++ w3 ++ w4 ++ w5 ++ w6)
    (fun '(x0, x1, x2, x3, x4, x5, x6) => Q0 x0 /\ Q1 x1 /\ Q2 x2 /\ Q3 x3 /\ Q4 x4 /\ Q5 x5 /\ Q6 x6).
Proof. tuple_enc. Qed.
Print Assumptions C20_tuple7_encoder.
Theorem C20_tuple8_encoder : forall S0 S1 S2 S3 S4 S5 S6 S7 I0 I1 I2 I3 I4 I5 I6 I7
    (E0 : Encoder S0 I0) (E1 : Encoder S1 I1) (E2 : Encoder S2 I2) (E3 : Encoder S3 I3) (E4 : Encoder S4 I4) (E5 : Encoder S5 I5) (E6 : Encoder S6 I6) (E7 : Encoder S7 I7)
    (F0 : format I0) (P0 Q0 : S0 -> Prop) (F1 : format I1) (P1 Q1 : S1 -> Prop) (F2 : format I2) (P2 Q2 : S2 -> Prop) (F3 : format I3) (P3 Q3 : S3 -> Prop) (F4 : format I4) (P4 Q4 : S4 -> Prop) (F5 : format I5) (P5 Q5 : S5 -> Prop) (F6 : format I6) (P6 Q6 : S6 -> Prop) (F7 : format I7) (P7 Q7 : S7 -> Prop)
    s0 s1 s2 s3 s4 s5 s6 s7 w0 w1 w2 w3 w4 w5 w6 w7 i0 i1 i2 i3 i4 i5 i6 i7,
  encodes E0 F0 P0 Q0 -> P0 s0 -> F0 w0 i0 ->
  encodes E1 F1 P1 Q1 -> P1 s1 -> F1 w1 i1 ->
  encodes E2 F2 P2 Q2 -> P2 s2 -> F2 w2 i2 ->
  encodes E3 F3 P3 Q3 -> P3 s3 -> F3 w3 i3 ->
  encodes E4 F4 P4 Q4 -> P4 s4 -> F4 w4 i4 ->
  encodes E5 F5 P5 Q5 -> P5 s5 -> F5 w5 i5 ->
  encodes E6 F6 P6 Q6 -> P6 s6 -> F6 w6 i6 ->
  encodes E7 F7 P7 Q7 -> P7 s7 -> F7 w7 i7 ->
  (len (w0 ++ w1 ++ w2 ++ w3 ++ w4 ++ w5 ++ w6 ++ w7) <= isize_max)%N ->
  sends (tuple8_encoder E0 E1 E2 E3 E4 E5 E6 E7) (s0, s1, s2, s3, s4, s5, s6, s7)
    (i0, i1, i2, i3, i4, i5, i6, i7) (w0 ++ w1 ++ w2 ++ w3 ++ w4 ++ w5 ++ w6 ++ w7)
    (fun '(x0, x1, x2, x3, x4, x5, x6, x7) => Q0 x0 /\ Q1 x1 /\ Q2 x2 /\ Q3 x3 /\ Q4 x4 /\ Q5 x5 /\ Q6 x6 /\ Q7 x7).
Proof. tuple_enc. Qed.
Print Assumptions C20_tuple8_encoder.

(** ** The hypotheses can be met *)
Example C20_decoder_example : exists i,
  parses ex_two SD ex_two_ready ex_two_new [x01; x02] i /\
  parses rem_decoder ToEos rem_ready rem_dec_new [xaa; xbb; xcc] [xaa; xbb; xcc] /\
  dec_idle rem_decoder rem_dec_new = false /\
  delivers (tuple3_decoder ex_two ex_two rem_decoder) ToEos (ex_two_new, ex_two_new, rem_dec_new)
    [x01; x02; x03; x04; xaa; xbb; xcc] ([x01; x02], [x03; x04], [xaa; xbb; xcc])
    (fun '(a, b, c) => ex_two_ready a /\ ex_two_ready b /\ rem_ready c).
Proof.
  exists [x01; x02]. split; [apply ex_two_parses|]. split; [apply ex_rest_parses|]. split; [reflexivity|].
  apply (C20_tuple3_decoder (ex_two_parses x01 x02) (ex_two_parses x03 x04) ex_rest_parses);
    [discriminate|reflexivity].
Qed.
Example C20_encoder_example :
  sends (tuple3_encoder (bytes_encoder vec_box) (bytes_encoder vec_box) (bytes_encoder vec_box))
    (bytes_enc_new, bytes_enc_new, bytes_enc_new) ([x01], [], [x02; x03]) [x01; x02; x03]
    (fun '(a, b, c) => bytes_eidle a /\ bytes_eidle b /\ bytes_eidle c).
Proof.
  assert (F : forall w, (len w <= 9)%N -> bytes_efmt vec_box w w).
  { intros w L. split; auto. unfold isize_max. lia. }
  change [x01; x02; x03] with ([x01] ++ [] ++ [x02; x03]).
  apply C20_tuple3_encoder
    with (F0 := bytes_efmt vec_box) (F1 := bytes_efmt vec_box) (F2 := bytes_efmt vec_box)
         (P0 := @bytes_eidle _) (P1 := @bytes_eidle _) (P2 := @bytes_eidle _);
    try apply bytes_encodes; try (apply F; discriminate); try reflexivity.
Qed.
