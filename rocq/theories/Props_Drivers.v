(** * C37, C40: what the decoder and the encoder see of the I/O drivers.

    Two codecs that differ only on calls which a driver never makes cannot be told apart by it.  So a theorem
    that says for which calls two codecs have to agree says which calls are made. *)
From Coq Require Import Lia ZifyBool ZifyNat ZifyN.
From Verif Require Import Iface Spec Prim Fixnum Comb Returns Props_Returns.
Set Implicit Arguments.

(** ** C37: [decode_exact] uses a buffer of 1024 bytes, never reads more than the decoder requires, one byte if it
    does not know, and announces the end of the stream only with an empty buffer *)
Theorem C37_calls_made : forall S I (D D' : Decoder S I) fuel ifuel s r,
  (forall s, dec_req D' s = dec_req D s) -> (forall s, dec_idle D' s = dec_idle D s) ->
  (forall s, dec_finish D' s = dec_finish D s) ->
  (forall s buf e,
     length buf <= 1024 ->
     (forall n, dec_req D s = Ok (Finite n) -> (len buf <= n)%N) ->
     (dec_req D s = Ok Unknown -> length buf <= 1) ->
     e = eos_new false /\ (buf = [] -> dec_req D s = Ok (Finite 0)) \/ e = eos_new true /\ buf = [] ->
     dec_decode D' ifuel s buf e = dec_decode D ifuel s buf e) ->
  decode_exact D' fuel ifuel s r = decode_exact D fuel ifuel s r.
Proof.
  intros S I D D' fuel ifuel s r RQ ID FI DE. revert s r.
  induction fuel as [|fuel IH]; intros s r; auto. cbn [decode_exact]. rewrite RQ.
  destruct (dec_req D s) as [q| | |] eqn:Q; auto. cbn zeta.
  assert (B : exact_ask q <= 1024 /\ (forall n, q = Finite n -> (N.of_nat (exact_ask q) <= n)%N) /\
              (q = Unknown -> exact_ask q <= 1)).
  { destruct q as [n| |]; cbn [exact_ask]; unfold io_buf_size; repeat split; intros; try lia; try discriminate;
      try (injection H as <-); destruct (N.ltb_spec n (N.of_nat 1024)); lia. }
  destruct B as (B1 & B2 & B3).
  assert (AGREE : forall b e, length b <= exact_ask q ->
     e = eos_new false /\ (b = [] -> q = Finite 0) \/ e = eos_new true /\ b = [] ->
     dec_decode D' ifuel s b e = dec_decode D ifuel s b e).
  { intros b e Lb He. apply DE; try lia.
    - intros n X. rewrite Q in X. injection X as ->. specialize (B2 n eq_refl). unfold len. lia.
    - intros X. rewrite Q in X. injection X as ->. specialize (B3 eq_refl). lia.
    - destruct He as [[-> X]|X]; auto. left. split; auto. intros Y. rewrite Q, X; auto. }
  assert (Z : exact_ask q = 0 -> q = Finite 0).
  { destruct q as [n| |]; cbn [exact_ask]; unfold io_buf_size; try discriminate.
    destruct (N.ltb_spec n (N.of_nat 1024)); [|discriminate]. intros E. f_equal. lia. }
  destruct (exact_ask q =? 0) eqn:A.
  - rewrite AGREE; [|cbn; lia|left; split; auto; intros _; apply Z; lia].
    destruct (dec_decode D ifuel s [] (eos_new false)) as [s' [n| | |]]; auto.
    destruct (n =? length (@nil byte)); auto. rewrite ID, FI. destruct (dec_idle D s'); auto.
  - destruct (rd_read r (exact_ask q)) as [r' [b|e]] eqn:RD; auto.
    assert (Lb : length b <= exact_ask q).
    { unfold rd_read in RD. destruct (rd_plan r) as [|[k| |e] p]; try discriminate;
        injection RD as _ <-; cbn [length]; rewrite ?firstn_length; lia. }
    rewrite AGREE; auto.
    + destruct (dec_decode D ifuel s b (eos_new (length b =? 0))) as [s' [n| | |]]; auto.
      destruct (n =? length b); auto. rewrite ID, FI. destruct (dec_idle D s'); auto.
    + destruct b; [right|left; split; [|discriminate]]; auto.
Qed.
Print Assumptions C37_calls_made.
(** A decoder that would panic on more than 1024 bytes at once, and on the end of the stream together with bytes,
    can safely be driven. *)
Definition fragile : Decoder (Collect NumDec N) (list N) :=
  {| dec_decode := fun fuel s buf e =>
       if (1024 <? length buf) || (is_reached e && negb (length buf =? 0)) then (s, Panic)
       else dec_decode (collect_decoder U16beDecoder) fuel s buf e;
     dec_finish := dec_finish (collect_decoder U16beDecoder);
     dec_req := dec_req (collect_decoder U16beDecoder);
     dec_idle := dec_idle (collect_decoder U16beDecoder) |}.
Example C37_calls_example : forall fuel ifuel s r,
  decode_exact fragile fuel ifuel s r = decode_exact (collect_decoder U16beDecoder) fuel ifuel s r.
Proof.
  intros. apply C37_calls_made; auto. intros s0 buf e L _ _ E. unfold fragile. cbn [dec_decode].
  destruct (Nat.ltb_spec 1024 (length buf)); [lia|]. cbn [orb].
  destruct E as [[-> _]|[-> ->]]; cbn [is_reached eos_new andb negb length Nat.eqb]; auto.
Qed.

(** ** C40: [encode_all] offers its 1024 bytes in every call and never announces the end of the stream *)
Theorem C40_calls_made : forall S I (E E' : Encoder S I) fuel s w,
  (forall s, enc_idle E' s = enc_idle E s) ->
  (forall fuel s buf e, length (snd (fst (enc_encode E fuel s buf e))) = length buf) ->
  (forall s buf, length buf = 1024 -> enc_idle E s = false ->
     enc_encode E' fuel s buf (eos_new false) = enc_encode E fuel s buf (eos_new false)) ->
  encode_all E' fuel s w = encode_all E fuel s w.
Proof.
  intros S I E E' fuel s w ID KEEP EN. unfold encode_all.
  assert (L0 : length (repeat x00 io_buf_size) = 1024) by (rewrite repeat_length; reflexivity).
  revert L0. generalize (repeat x00 io_buf_size).
  enough (K : forall f s buf w, length buf = 1024 -> encode_all_loop E' f fuel s buf w = encode_all_loop E f fuel s buf w)
    by (intros; apply K; auto).
  clear s w. rename fuel into ifuel.
  induction f as [|fuel IH]; intros s buf w L0; cbn [encode_all_loop]; rewrite ID; auto.
  destruct (enc_idle E s) eqn:i; auto. rewrite EN; auto.
  pose proof (KEEP ifuel s buf (eos_new false)) as K.
  destruct (enc_encode E ifuel s buf (eos_new false)) as [[s' buf'] [n| | |]]; auto. cbn [fst snd] in K.
  destruct (n <=? length buf'); auto.
  destruct (wr_write_all w (firstn n buf')) as [w' [u| | |]]; auto. rewrite ID.
  destruct (negb (enc_idle E s') && (n =? 0)); auto. apply IH. congruence.
Qed.
Print Assumptions C40_calls_made.
(** An encoder that would panic on any smaller buffer, or when told that the stream ends. *)
Definition demanding : Encoder NumEnc N :=
  {| enc_encode := fun fuel s buf e =>
       if (length buf =? 1024) && negb (is_reached e) then enc_encode U64beEncoder fuel s buf e else (s, buf, Panic);
     enc_start := enc_start U64beEncoder; enc_req := enc_req U64beEncoder; enc_idle := enc_idle U64beEncoder |}.
Example C40_calls_example : forall fuel s w, encode_all demanding fuel s w = encode_all U64beEncoder fuel s w.
Proof.
  intros. apply C40_calls_made; auto.
  - intros f t buf e. destruct (enc_encode U64beEncoder f t buf e) as [[t' buf'] r] eqn:X. cbn [fst snd].
    assert (DI : direct U64beEncoder true) by apply dr_num.
    apply (C59_stays_in_buffer DI _ _ _ _ X).
  - intros t buf L _. unfold demanding. cbn [enc_encode]. rewrite L. reflexivity.
Qed.
