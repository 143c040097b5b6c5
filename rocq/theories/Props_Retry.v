(** * C64: blocking I/O after a failed transfer; many items from one reader. *)
From Coq Require Import Lia ZifyBool ZifyNat ZifyN.
From Verif Require Import Universe UniverseProofs Drive Session Examples Props_Codec Props_Trunc.
Set Implicit Arguments.

(** ** What the theorems say *)

(** A caller that calls [decode_exact] again after an error, at most [n] times more. *)
Fixpoint keep_trying {T I} (D : Decoder T I) (n fuel : nat) (s : T) (r : Reader) : T * Reader * res I :=
  match decode_exact D fuel fuel s r, n with
  | (s', r', Err _), S n' => keep_trying D n' fuel s' r'
  | y, _ => y
  end.
Definition fails (p : RdPlan) : bool := match p with RdErr _ => true | _ => false end.
(** The number of reads that fail. *)
Definition failures (r : Reader) : nat := length (filter fails (rd_plan r)).
(** The same reader if no read failed. *)
Definition calm (r : Reader) : Reader := mkReader (rd_data r) (filter (fun p => negb (fails p)) (rd_plan r)).
(** A caller that takes [n] items, one after the other, and tries again after every failed read. *)
Fixpoint exact_items {T I} (D : Decoder T I) (n fuel : nat) (s : T) (r : Reader)
    : T * Reader * res (list I) :=
  match n with
  | 0 => (s, r, Ok [])
  | S n' =>
      match keep_trying D (failures r) fuel s r with
      | (s', r', Ok i) =>
          match exact_items D n' fuel s' r' with
          | (s'', r'', Ok l) => (s'', r'', Ok (i :: l))
          | y => y
          end
      | (s', r', x) => (s', r', rcast x)
      end
  end.

(** ** Proofs *)
Lemma exact_fuel : forall T I (D : Decoder T I) ifuel fuel s r s' r' x f,
  decode_exact D fuel ifuel s r = (s', r', x) -> x <> OutOfFuel -> fuel <= f ->
  decode_exact D f ifuel s r = (s', r', x).
Proof.
  intros T I D ifuel. induction fuel as [|fuel IH]; intros s r s' r' x f E NX L.
  { injection E as _ _ <-. congruence. }
  destruct f as [|f]; [lia|]. cbn [decode_exact] in E |- *. cbn zeta in *.
  destruct (dec_req D s) as [q| | |]; auto.
  destruct (if exact_ask q =? 0 then (r, inl []) else rd_read r (exact_ask q)) as [r1 [b|e]]; auto.
  destruct (dec_decode D ifuel s b _) as [s1 [k| | |]]; auto.
  destruct (k =? length b); auto. destruct (dec_idle D s1); auto. apply (IH _ _ _ _ _ _ E NX). lia.
Qed.
(** One attempt: it ends as it would have without failing reads, or with a failing read in a state
    from which the calm run goes on. *)
Lemma exact_calm : forall T I (D : Decoder T I) ifuel fuel s r s' r' x,
  decode_exact D fuel ifuel s r = (s', r', x) ->
  (failures r' = failures r /\ decode_exact D fuel ifuel s (calm r) = (s', calm r', x)) \/
  (S (failures r') = failures r /\ (exists k, x = Err k) /\
   exists k, k <= fuel /\ forall f, decode_exact D (k + f) ifuel s (calm r) = decode_exact D f ifuel s' (calm r')).
Proof.
  intros T I D ifuel. induction fuel as [|fuel IH]; intros s r s' r' x E.
  { left. injection E as <- <- <-. auto. }
  cbn [decode_exact] in E. cbn zeta in E.
  destruct (dec_req D s) as [q| | |] eqn:Q;
    try (injection E as <- <- <-; left; split; auto; cbn [decode_exact]; rewrite Q; reflexivity).
  assert (R : (exists e, rd_read r (exact_ask q) = (mkReader (rd_data r) (tl (rd_plan r)), inr e) /\
                 rd_plan r = RdErr e :: tl (rd_plan r)) \/
              (exists r1 b, rd_read r (exact_ask q) = (r1, inl b) /\ failures r1 = failures r /\
                 rd_read (calm r) (exact_ask q) = (calm r1, inl b))).
  { unfold rd_read, failures, calm. destruct r as [d [|[n| |e] p]]; cbn; eauto 10. }
  destruct (exact_ask q =? 0) eqn:Z.
  - destruct (dec_decode D ifuel s [] (eos_new false)) as [s1 [k| | |]] eqn:X;
      try (injection E as <- <- <-; left; split; auto; cbn [decode_exact]; cbn zeta; rewrite Q, Z, X; reflexivity).
    destruct (k =? length (@nil byte)) eqn:K;
      [|injection E as <- <- <-; left; split; auto; cbn [decode_exact]; cbn zeta; rewrite Q, Z, X, K; reflexivity].
    destruct (dec_idle D s1) eqn:id.
    + destruct (dec_finish D s1) as [s2 y] eqn:Fi. injection E as <- <- <-. left; split; auto.
      cbn [decode_exact]; cbn zeta. rewrite Q, Z, X, K, id, Fi. reflexivity.
    + destruct (IH _ _ _ _ _ E) as [[H1 H2]|(H1 & H2 & k' & H3 & H4)].
      * left; split; auto. cbn [decode_exact]; cbn zeta. rewrite Q, Z, X, K, id. auto.
      * right. split; auto. split; auto. exists (S k'). split; [lia|]. intros f.
        cbn [Nat.add decode_exact]; cbn zeta. rewrite Q, Z, X, K, id. auto.
  - destruct R as [(e & R & PL)|(r1 & b & R & FE & RC)]; rewrite R in E.
    + injection E as <- <- <-. right. unfold failures, calm. rewrite PL. cbn. split; auto.
      split; eauto. exists 0. split; [lia|]. reflexivity.
    + destruct (dec_decode D ifuel s b _) as [s1 [k| | |]] eqn:X;
        try (injection E as <- <- <-; left; split; auto; cbn [decode_exact]; cbn zeta; rewrite Q, Z, RC, X; reflexivity).
      destruct (k =? length b) eqn:K;
        [|injection E as <- <- <-; left; split; auto; cbn [decode_exact]; cbn zeta; rewrite Q, Z, RC, X, K; reflexivity].
      destruct (dec_idle D s1) eqn:id.
      * destruct (dec_finish D s1) as [s2 y] eqn:Fi. injection E as <- <- <-. left; split; auto.
        cbn [decode_exact]; cbn zeta. rewrite Q, Z, RC, X, K, id, Fi. reflexivity.
      * destruct (IH _ _ _ _ _ E) as [[H1 H2]|(H1 & H2 & k' & H3 & H4)].
        -- left; split; [congruence|]. cbn [decode_exact]; cbn zeta. rewrite Q, Z, RC, X, K, id. auto.
        -- right. split; [congruence|]. split; auto. exists (S k'). split; [lia|]. intros f.
           cbn [Nat.add decode_exact]; cbn zeta. rewrite Q, Z, RC, X, K, id. auto.
Qed.

(** ** C64: [decode_exact] can be resumed after a failed read

    For every decoder in every state: if [decode_exact] succeeds on a reader, it succeeds on a
    reader that gives the same data but fails any number of times in between, when it is called
    again after every failure: the same item, the same state, the same bytes left. *)
Theorem C64_decode_exact_resumes : forall T I (D : Decoder T I) fuel s r s' r' i,
  decode_exact D fuel fuel s (calm r) = (s', r', Ok i) ->
  exists r1, keep_trying D (failures r) fuel s r = (s', r1, Ok i) /\ calm r1 = r'.
Proof.
  intros T I D fuel s r s' r' i E. remember (failures r) as n eqn:N.
  revert s r E N. induction n as [|n IH]; intros s r E N;
    destruct (decode_exact D fuel fuel s r) as [[s1 r1] x] eqn:X; cbn [keep_trying]; rewrite X;
    destruct (exact_calm _ _ _ _ _ X) as [[H1 H2]|(H1 & (k & ->) & k' & H3 & H4)]; try lia.
  - rewrite E in H2. injection H2 as -> -> <-. eauto.
  - rewrite E in H2. injection H2 as -> -> <-. eauto.
  - apply IH; [|lia]. specialize (H4 fuel). symmetry in H4.
    rewrite (exact_fuel _ _ _ _ E (f := k' + fuel)) in H4; auto; [discriminate|lia].
Qed.
Print Assumptions C64_decode_exact_resumes.
(** So no failing read loses a byte of an item. *)
Definition may_fail (r : Reader) : Prop :=
  Forall (fun p => (exists n, p = RdSome n) \/ (exists e, p = RdErr e)) (rd_plan r).
Theorem C64_no_byte_lost : forall A (c : codec A) w a extra r fuel,
  wf c -> busy c = true \/ delim c = ToEos -> reads c w a ->
  rd_data r = w ++ extra -> (delim c <> SD -> extra = []) -> may_fail r ->
  length w + 2 <= fuel ->
  exists s r', keep_trying (decoder c) (failures r) fuel (dec_fresh c) r = (s, r', Ok a) /\
               rd_data r' = extra.
Proof.
  intros A c w a extra r fuel WF B R RD EX MF F.
  destruct (@C37_decode_exact A c w a extra (calm r) fuel) as (s & r' & X1 & X2); auto.
  { unfold short_reads, calm. cbn. clear - MF. unfold may_fail in MF.
    induction MF as [|p l [[n ->]|[e ->]] MF IH]; cbn; auto. constructor; eauto. }
  destruct (@C64_decode_exact_resumes _ _ _ _ _ _ _ _ _ X1) as (r1 & Y1 & Y2). exists s, r1. split; auto.
  rewrite <- X2, <- Y2. reflexivity.
Qed.
Print Assumptions C64_no_byte_lost.
Example C64_example :
  let r := mkReader (ex_msg_bytes ++ [x55]) [RdSome 2; RdErr IoWouldBlock; RdErr IoInterrupted; RdSome 0; RdErr IoOther] in
  wf ex_msg /\ busy ex_msg = true /\ reads ex_msg ex_msg_bytes ex_msg_item /\
  rd_data r = ex_msg_bytes ++ [x55] /\ may_fail r /\ failures r = 3.
Proof.
  split; [apply ex_msg_wf|]. split; [reflexivity|]. split; [apply ex_msg_reads|]. split; [reflexivity|].
  split; [|reflexivity]. unfold may_fail; cbn.
  repeat (apply Forall_cons; [(left; eexists; reflexivity) || (right; eexists; reflexivity)|]). apply Forall_nil.
Qed.

(** ** C64: one reader, many items *)
Theorem C64_items_in_order : forall A (c : codec A) ws items extra r fuel,
  wf c -> delim c = SD -> dec_again c = true -> busy c = true ->
  Forall2 (reads c) ws items -> rd_data r = concat ws ++ extra -> may_fail r ->
  Forall (fun w => length w + 2 <= fuel) ws ->
  exists s r', exact_items (decoder c) (length items) fuel (dec_fresh c) r = (s, r', Ok items) /\
               rd_data r' = extra.
Proof.
  intros A c ws items extra r fuel WF M AG B HF RD SR FU.
  pose proof (proj1 term_dec_ok A c WF) as DO. unfold code_dec_ok in DO. rewrite AG, M, B in DO.
  destruct (dec_ok_again DO) as (P & HD & H0 & HB). specialize (HB (or_introl eq_refl)).
  revert H0. generalize (dec_fresh c).
  assert (SR' : short_reads (calm r)).
  { unfold short_reads, calm. cbn. clear - SR. unfold may_fail in SR.
    induction SR as [|p l [[n ->]|[e ->]] SR IH]; cbn; auto. constructor; eauto. }
  clear SR. revert r RD SR' FU.
  induction HF as [|w a ws items R HF IH]; intros r RD SR FU s H0; cbn [length exact_items concat] in *.
  - exists s, r. auto.
  - inversion FU; subst.
    assert (G : Forall gives (rd_plan (calm r))).
    { eapply Forall_impl; [|exact SR]. intros p (n & ->). exact Logic.I. }
    rewrite <- app_assoc in RD.
    destruct (@decode_exact_ok _ _ (decoder c) SD P fuel fuel s w (concat ws ++ extra) a (calm r) (HD _ _ _ H0 R)
                (HB _ H0) ltac:(congruence) RD G ltac:(lia) ltac:(lia)) as (s1 & r1 & X1 & P1 & RD1).
    destruct (@C64_decode_exact_resumes _ _ _ _ _ _ _ _ _ X1) as (r2 & Y1 & <-). rewrite Y1.
    assert (SR1 : short_reads (calm r2)).
    { destruct (@C38_failing_read _ _ _ _ _ _ _ _ _ _ X1) as (used & PL & _). unfold short_reads in *.
      rewrite PL, Forall_app in SR. tauto. }
    destruct (IH r2 RD1 SR1 H3 s1 P1) as (s2 & r3 & X2 & RD2). rewrite X2. eauto.
Qed.
Print Assumptions C64_items_in_order.
Example C64_items_example :
  let r := mkReader (concat [ex_tlv_bytes; [x08; x00; x00]; ex_tlv_bytes] ++ [x77])
             [RdSome 2; RdErr IoWouldBlock; RdSome 0; RdErr IoOther; RdErr IoInterrupted; RdSome 9] in
  wf ex_tlv /\ delim ex_tlv = SD /\ dec_again ex_tlv = true /\ busy ex_tlv = true /\
  Forall2 (reads ex_tlv) [ex_tlv_bytes; [x08; x00; x00]; ex_tlv_bytes]
                         [ex_tlv_item; (8%N, []); ex_tlv_item] /\
  may_fail r /\ failures r = 3 /\ Forall (fun w => length w + 2 <= 99) [ex_tlv_bytes; [x08; x00; x00]; ex_tlv_bytes].
Proof.
  split; [apply ex_tlv_wf|]. do 3 (split; [reflexivity|]). split; [|split; [|split]].
  - repeat (constructor; [apply ex_tlv_reads1 || apply ex_tlv_reads2|]). constructor.
  - unfold may_fail; cbn.
    repeat (apply Forall_cons; [(left; eexists; reflexivity) || (right; eexists; reflexivity)|]). apply Forall_nil.
  - reflexivity.
  - repeat constructor; cbn; lia.
Qed.

(** ** C64 for [encode_all] fails: the bytes taken from the encoder when a write fails are gone.
    The second call succeeds and the encoder is idle, but a part of the item never arrives. *)
Theorem C64_encode_all_retry_refuted : exists (item : list byte) s0 s1 w1 s2 w2,
  enc_start (encoder CRest) 9 (enc_fresh CRest) item = (s0, Ok tt) /\
  encode_all (encoder CRest) 9 s0 (mkWriter [] [WrSome 0; WrErr IoWouldBlock]) = (s1, w1, Err Other) /\
  encode_all (encoder CRest) 9 s1 w1 = (s2, w2, Ok tt) /\
  enc_idle (encoder CRest) s2 = true /\ wr_data w2 <> item.
Proof.
  set (item := [x01; x02; x03]).
  set (s0 := fst (enc_start (encoder CRest) 9 (enc_fresh CRest) item)).
  set (y := encode_all (encoder CRest) 9 s0 (mkWriter [] [WrSome 0; WrErr IoWouldBlock])).
  set (z := encode_all (encoder CRest) 9 (fst (fst y)) (snd (fst y))).
  exists item, s0, (fst (fst y)), (snd (fst y)), (fst (fst z)), (snd (fst z)).
  repeat split; try (vm_compute; reflexivity). vm_compute. discriminate.
Qed.
Print Assumptions C64_encode_all_retry_refuted.
