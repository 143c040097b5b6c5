(** * C65, C66: what a call depends on. *)
From Coq Require Import Lia.
From Verif Require Import LocalProofs Props_Safe.
Set Implicit Arguments.

(** ** C65: a successful decode call does not depend on the bytes it leaves in the buffer

    In any state, reachable or not, with any end-of-stream argument. *)
Theorem C65_no_lookahead : forall S I (D : Decoder S I), sequential D ->
  forall fuel s buf buf' e s' n,
    dec_decode D fuel s buf e = (s', Ok n) ->
    length buf' = length buf -> firstn n buf' = firstn n buf ->
    dec_decode D fuel s buf' e = (s', Ok n).
Proof. intros S I D H. exact (sequential_nl H). Qed.
Print Assumptions C65_no_lookahead.

(** A whole history: [steps D s l s'] are successful calls, each with its buffer, its end-of-stream
    argument and the number of bytes it took. *)
Inductive steps {S I} (D : Decoder S I) (s : S) : list (list byte * Eos * nat) -> S -> Prop :=
| steps_nil : steps D s [] s
| steps_snoc : forall l s1 fuel buf e s2 n, steps D s l s1 ->
    dec_decode D fuel s1 buf e = (s2, Ok n) -> steps D s (l ++ [(buf, e, n)]) s2.
(** The same call with other bytes after those taken. *)
Definition same_taken (x y : list byte * Eos * nat) : Prop :=
  let '(buf, e, n) := x in let '(buf', e', n') := y in
  length buf' = length buf /\ firstn n buf' = firstn n buf /\ e' = e /\ n' = n.
Theorem C65_history : forall S I (D : Decoder S I), sequential D ->
  forall s l l' s', steps D s l s' -> Forall2 same_taken l l' -> steps D s l' s'.
Proof.
  intros S I D H s l l' s' X. revert l'. induction X as [|l s1 fuel buf e s2 n X IH Y]; intros l' F.
  - inversion F. constructor.
  - apply Forall2_app_inv_l in F. destruct F as (a & b & F1 & F2 & ->).
    inversion F2 as [|? y ? b' ST F3]; subst. inversion F3; subst. destruct y as [[buf' e'] n'].
    destruct ST as (L & T & -> & ->). econstructor; eauto. eapply C65_no_lookahead; eauto.
Qed.
Print Assumptions C65_history.

(** A decoder of a message with a delimited body, handed more bytes than belong to the message. *)
Example C65_example : sequential ex_dec /\
  forall z1 z2, exists s, dec_decode ex_dec 0 ex_dec0 [x07; x00; x01; xcc; z1; z2] (eos_new true) = (s, Ok 4) /\
    dec_decode ex_dec 0 ex_dec0 [x07; x00; x01; xcc; x41; x42] (eos_new true) = (s, Ok 4).
Proof.
  split; [unfold ex_dec; repeat constructor|]. intros z1 z2. eexists. split; reflexivity.
Qed.
(** A [reads_only] object: a byte, then that many bytes. *)
Definition ex_reader (w : list byte) : (list byte + ErrorKind) * nat :=
  match w with
  | [] => (inr UnexpectedEos, 0)
  | b :: w' => let k := N.to_nat (Byte.to_N b) in
      if k <=? length w' then (inl (firstn k w'), S k) else (inr UnexpectedEos, length w)
  end.
Example C65_reader : reads_only ex_reader /\ sequential (mono_decoder ex_reader).
Proof.
  assert (R : reads_only ex_reader).
  { intros [|b w] [|b' w'] i n X L F; cbn in L; try discriminate; unfold ex_reader in *.
    destruct (Nat.leb_spec (N.to_nat (Byte.to_N b)) (length w)); inversion X; subst.
    cbn [firstn] in F. injection F as -> F. destruct (Nat.leb_spec (N.to_nat (Byte.to_N b)) (length w')); [|lia].
    now rewrite F. }
  split; auto. now constructor.
Qed.
(** ** C66: encoding does not depend on what the output buffer holds, and leaves the rest of it alone

    In any state, for every composition of the crate's encoders. *)
Theorem C66_write_only : forall S I (E : Encoder S I) B l Item Conf Init,
  composed_enc E B l Item Conf Init ->
  forall fuel s buf buf2 e s' buf' r,
    enc_encode E fuel s buf e = (s', buf', r) -> length buf2 = length buf ->
    exists buf2', enc_encode E fuel s buf2 e = (s', buf2', r) /\
      forall n, r = Ok n -> buf' = firstn n buf' ++ skipn n buf /\ buf2' = firstn n buf' ++ skipn n buf2.
Proof. intros S I E B l Item Conf Init H. apply wo_write_only. eapply composed_enc_wo; eauto. Qed.
Print Assumptions C66_write_only.

Example C66_example : exists s1 s2,
  enc_start ex_enc 9 ex_enc0 ([[x01; x02]; [x03]], 5%N) = (s1, Ok tt) /\
  enc_encode ex_enc 9 s1 [xee; xee; xee; xee] (eos_new false) = (s2, [x01; x02; x03; x00], Ok 4) /\
  (exists Item Conf Init, composed_enc ex_enc (isize_max + 3) false Item Conf Init).
Proof.
  do 2 eexists. split; [reflexivity|]. split; [vm_compute; reflexivity|].
  destruct ex_enc_composed as (A & B & C & D & _). eauto.
Qed.
