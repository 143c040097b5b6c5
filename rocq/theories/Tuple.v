(** * Tuples: src/tuple.rs.

    The macros [impl_decode!] and [impl_encode!] expand a list of components; the expansion
    is modelled by folding the same steps over the components, from left to right.
    A tuple [(a, b, c)] is a left-nested pair, as in Coq's notation. *)
From Verif Require Export Iface.
Set Implicit Arguments.

(** The steps the macro generates for a prefix of the components:
    - [dp_decode]: the [bytecodec_try_decode!] statements (src/tuple.rs:41);
    - [dp_finish]: the components of the tuple expression (src/tuple.rs:46-48);
    - [dp_req]: the [.add_for_decoding(..)] calls, applied to what is on their left (52);
    - [dp_idle]: the operands of [&&] (56). *)
Record DecParts (S I : Type) := mkDecParts {
  dp_decode : nat -> S -> nat -> list byte -> Eos -> tried S;
  dp_finish : S -> S * res I;
  dp_req : ByteCount -> S -> res ByteCount;
  dp_idle : S -> bool
}.

(** The first component of the macro at src/tuple.rs:31-60. *)
Definition dp_one {S I} (D : Decoder S I) : DecParts S I :=
  {| dp_decode := try_decode D;
     dp_finish := dec_finish D;
     dp_req := fun acc s => rbind (dec_req D s) (add_for_decoding acc);
     dp_idle := dec_idle D |}.

(** One more component on the right: src/tuple.rs:31-60. *)
Definition dp_snoc {S I S' I'} (P : DecParts S I) (D : Decoder S' I')
    : DecParts (S * S') (I * I') :=
  {| dp_decode := fun fuel s off buf e =>
       match dp_decode P fuel (fst s) off buf e with
       | TRet s0 r => TRet (s0, snd s) r
       | TGo s0 off0 =>
           match try_decode D fuel (snd s) off0 buf e with
           | TRet s1 r => TRet (s0, s1) r
           | TGo s1 off1 => TGo (s0, s1) off1
           end
       end;
     dp_finish := fun s =>
       match dp_finish P (fst s) with
       | (s0, Ok i0) =>
           match dec_finish D (snd s) with
           | (s1, r1) => ((s0, s1), rmap (pair i0) r1)
           end
       | (s0, r) => ((s0, snd s), rcast r)
       end;
     dp_req := fun acc s =>
       rbind (dp_req P acc (fst s)) (fun q =>
       rbind (dec_req D (snd s)) (add_for_decoding q));
     dp_idle := fun s => dp_idle P (fst s) && dec_idle D (snd s) |}.

(** [Decode for TupleDecoder]: src/tuple.rs:31-60. *)
Definition tuple_of_dec_parts {S I} (P : DecParts S I) : Decoder S I :=
  {| dec_decode := fun fuel s buf e =>
       match dp_decode P fuel s 0 buf e with
       | TRet s' r => (s', r)
       | TGo s' off => (s', Ok off)
       end;
     dec_finish := dp_finish P;
     dec_req := dp_req P (Finite 0);
     dec_idle := dp_idle P |}.

(** The same for encoders: [ep_encode] src/tuple.rs:107, [ep_start] 112, [ep_req] 117,
    [ep_idle] 121, [ep_exact] 129. *)
Record EncParts (S I : Type) := mkEncParts {
  ep_encode : nat -> S -> nat -> list byte -> Eos -> tried S * list byte;
  ep_start : nat -> S -> I -> S * res unit;
  ep_req : ByteCount -> S -> res ByteCount;
  ep_idle : S -> bool
}.
Definition ep_one {S I} (E : Encoder S I) : EncParts S I :=
  {| ep_encode := try_encode E;
     ep_start := enc_start E;
     ep_req := fun acc s => rbind (enc_req E s) (add_for_encoding acc);
     ep_idle := enc_idle E |}.
Definition ep_snoc {S I S' I'} (P : EncParts S I) (E : Encoder S' I')
    : EncParts (S * S') (I * I') :=
  {| ep_encode := fun fuel s off buf e =>
       match ep_encode P fuel (fst s) off buf e with
       | (TRet s0 r, buf0) => (TRet (s0, snd s) r, buf0)
       | (TGo s0 off0, buf0) =>
           match try_encode E fuel (snd s) off0 buf0 e with
           | (TRet s1 r, buf1) => (TRet (s0, s1) r, buf1)
           | (TGo s1 off1, buf1) => (TGo (s0, s1) off1, buf1)
           end
       end;
     ep_start := fun fuel s i =>
       match ep_start P fuel (fst s) (fst i) with
       | (s0, Ok _) =>
           match enc_start E fuel (snd s) (snd i) with
           | (s1, r1) => ((s0, s1), r1)
           end
       | (s0, r) => ((s0, snd s), r)
       end;
     ep_req := fun acc s =>
       rbind (ep_req P acc (fst s)) (fun q =>
       rbind (enc_req E (snd s)) (add_for_encoding q));
     ep_idle := fun s => ep_idle P (fst s) && enc_idle E (snd s) |}.

(** [Encode for TupleEncoder]: src/tuple.rs:96-123. *)
Definition tuple_of_enc_parts {S I} (P : EncParts S I) : Encoder S I :=
  {| enc_encode := fun fuel s buf e =>
       match ep_encode P fuel s 0 buf e with
       | (TRet s' r, buf') => (s', buf', r)
       | (TGo s' off, buf') => (s', buf', Ok off)
       end;
     enc_start := ep_start P;
     enc_req := ep_req P (Finite 0);
     enc_idle := ep_idle P |}.

(** [0 + a + b + ...] on [u64]: src/tuple.rs:124-131. *)
Definition exact_add (a b : res N) : res N :=
  rbind a (fun x => rbind b (fun y =>
    match u64_add x y with Some n => Ok n | None => Panic end)).
Definition exact_one {S} (f : S -> res N) (s : S) : res N := exact_add (Ok 0%N) (f s).
Definition exact_snoc {S S'} (g : S -> res N) (f : S' -> res N) (s : S * S') : res N :=
  exact_add (g (fst s)) (f (snd s)).

(** ** The instances: src/tuple.rs:61-67 and 133-139 *)
Section Instances.
  Context {S0 S1 S2 S3 S4 S5 S6 S7 I0 I1 I2 I3 I4 I5 I6 I7 : Type}.
  Section Dec.
    Variables (D0 : Decoder S0 I0) (D1 : Decoder S1 I1) (D2 : Decoder S2 I2)
      (D3 : Decoder S3 I3) (D4 : Decoder S4 I4) (D5 : Decoder S5 I5) (D6 : Decoder S6 I6)
      (D7 : Decoder S7 I7).
    Definition dec_parts2 := dp_snoc (dp_one D0) D1.
    Definition dec_parts3 := dp_snoc dec_parts2 D2.
    Definition dec_parts4 := dp_snoc dec_parts3 D3.
    Definition dec_parts5 := dp_snoc dec_parts4 D4.
    Definition dec_parts6 := dp_snoc dec_parts5 D5.
    Definition dec_parts7 := dp_snoc dec_parts6 D6.
    Definition dec_parts8 := dp_snoc dec_parts7 D7.
    Definition tuple2_decoder : Decoder (S0 * S1) (I0 * I1) := tuple_of_dec_parts dec_parts2.
    Definition tuple3_decoder : Decoder (S0 * S1 * S2) (I0 * I1 * I2) :=
      tuple_of_dec_parts dec_parts3.
    Definition tuple4_decoder : Decoder (S0 * S1 * S2 * S3) (I0 * I1 * I2 * I3) :=
      tuple_of_dec_parts dec_parts4.
    Definition tuple5_decoder : Decoder (S0 * S1 * S2 * S3 * S4) (I0 * I1 * I2 * I3 * I4) :=
      tuple_of_dec_parts dec_parts5.
    Definition tuple6_decoder
      : Decoder (S0 * S1 * S2 * S3 * S4 * S5) (I0 * I1 * I2 * I3 * I4 * I5) :=
      tuple_of_dec_parts dec_parts6.
    Definition tuple7_decoder
      : Decoder (S0 * S1 * S2 * S3 * S4 * S5 * S6) (I0 * I1 * I2 * I3 * I4 * I5 * I6) :=
      tuple_of_dec_parts dec_parts7.
    Definition tuple8_decoder
      : Decoder (S0 * S1 * S2 * S3 * S4 * S5 * S6 * S7)
                (I0 * I1 * I2 * I3 * I4 * I5 * I6 * I7) :=
      tuple_of_dec_parts dec_parts8.
  End Dec.
  Section Enc.
    Variables (E0 : Encoder S0 I0) (E1 : Encoder S1 I1) (E2 : Encoder S2 I2)
      (E3 : Encoder S3 I3) (E4 : Encoder S4 I4) (E5 : Encoder S5 I5) (E6 : Encoder S6 I6)
      (E7 : Encoder S7 I7).
    Definition enc_parts2 := ep_snoc (ep_one E0) E1.
    Definition enc_parts3 := ep_snoc enc_parts2 E2.
    Definition enc_parts4 := ep_snoc enc_parts3 E3.
    Definition enc_parts5 := ep_snoc enc_parts4 E4.
    Definition enc_parts6 := ep_snoc enc_parts5 E5.
    Definition enc_parts7 := ep_snoc enc_parts6 E6.
    Definition enc_parts8 := ep_snoc enc_parts7 E7.
    Definition tuple2_encoder : Encoder (S0 * S1) (I0 * I1) := tuple_of_enc_parts enc_parts2.
    Definition tuple3_encoder : Encoder (S0 * S1 * S2) (I0 * I1 * I2) :=
      tuple_of_enc_parts enc_parts3.
    Definition tuple4_encoder : Encoder (S0 * S1 * S2 * S3) (I0 * I1 * I2 * I3) :=
      tuple_of_enc_parts enc_parts4.
    Definition tuple5_encoder : Encoder (S0 * S1 * S2 * S3 * S4) (I0 * I1 * I2 * I3 * I4) :=
      tuple_of_enc_parts enc_parts5.
    Definition tuple6_encoder
      : Encoder (S0 * S1 * S2 * S3 * S4 * S5) (I0 * I1 * I2 * I3 * I4 * I5) :=
      tuple_of_enc_parts enc_parts6.
    Definition tuple7_encoder
      : Encoder (S0 * S1 * S2 * S3 * S4 * S5 * S6) (I0 * I1 * I2 * I3 * I4 * I5 * I6) :=
      tuple_of_enc_parts enc_parts7.
    Definition tuple8_encoder
      : Encoder (S0 * S1 * S2 * S3 * S4 * S5 * S6 * S7)
                (I0 * I1 * I2 * I3 * I4 * I5 * I6 * I7) :=
      tuple_of_enc_parts enc_parts8.
  End Enc.
End Instances.
