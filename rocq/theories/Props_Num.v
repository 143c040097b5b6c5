(** * Theorems about numbers and text: C05, C06, C07, C34. *)
From Coq Require Import Lia ZifyBool ZifyNat ZifyN.
From Verif Require Import NumProofs Utf8Proofs Session Drive CodecProofs Examples Props_Codec.
Set Implicit Arguments.

(** Consequences of the contracts, used for every number codec below. *)
Lemma number_encode : forall T (E : Encoder NumEnc T) (fmt : format T) w n,
  encodes E fmt (@bytes_eidle (list byte)) (@bytes_eidle (list byte)) -> fmt w n -> 0 < length w ->
  exists f0, forall fuel bufs, f0 + room bufs < fuel ->
  exists s1 s,
    enc_start E fuel num_enc_new n = (s1, Ok tt) /\
    drain E fuel s1 [] bufs = (s, firstn (room bufs) w, Ok tt) /\
    (enc_idle E s = true <-> length w <= room bufs /\ bufs <> []).
Proof.
  intros T E fmt w n HE FM WP. destruct (HE _ _ FM) as (f0 & AC).
  exists f0. intros fuel bufs F.
  destruct (AC num_enc_new eq_refl fuel ltac:(lia)) as (s1 & X1 & EM).
  destruct (drain_ok (fuel := fuel) bufs [] EM F) as (s & X2 & EM2 & ID).
  exists s1, s. split; auto. split; auto. rewrite ID.
  assert (id1 : enc_idle E s1 = false).
  { destruct (enc_idle E s1) eqn:id; auto. destruct (emits_idle EM id) as (-> & _).
    cbn in WP; lia. }
  rewrite id1. intuition congruence.
Qed.
Lemma number_decode : forall T (D : Decoder NumDec T) (fmt : format T) (P : NumDec -> Prop)
  w n extra sched fuel s0,
  decodes D SD fmt P P -> P s0 -> fmt w n -> sched <> [] -> length w <= offered sched ->
  (len (w ++ extra) <= u64_max)%N -> length (w ++ extra) < fuel ->
  exists s, feed D fuel s0 (w ++ extra) sched = (s, extra, Ok tt) /\
    dec_idle D s = true /\ exists s', dec_finish D s = (s', Ok n) /\ P s'.
Proof.
  intros T D fmt P w n extra sched fuel s0 HD R FM SN OF L F.
  destruct (feed_sd (fuel := fuel) sched extra (HD _ _ _ R FM) L F) as (s & X1 & X2 & X3).
  assert (id : dec_idle D s = true) by (apply X3; auto).
  exists s. rewrite X1, Nat.min_l, skipn_app_exact by lia. split; auto. split; auto.
  destruct (parses_idle X2 id) as (_ & _ & s' & ? & ?). eauto.
Qed.

(** ** C05: unsigned numbers.

    [unum] lists the codecs by name, [uwidth] their number of bytes and [uvalue] the byte order:
    [be_value]/[le_value] (file [NumSpec]) is the number with the given base-256 digits. *)

(** Every number below [256 ^ width] has exactly one string of [width] digits. *)
Lemma digits_total : forall k n, (n < 256 ^ N.of_nat (uwidth k))%N -> exists w, num_bytes k n w.
Proof.
  intros k n L. destruct k;
    lazymatch goal with
    | |- context [num_bytes ?k] =>
      let m := eval cbv in (uwidth k) in
      first [ exists (write_be m n); exact (ube_total m L)
            | exists (write_le m n); exact (ule_total m L) ]
    end.
Qed.
Lemma digits_unique : forall k w w', length w = length w' -> uvalue k w = uvalue k w' -> w = w'.
Proof.
  intros k w w' L V. destruct k; first [apply be_value_inj; assumption | apply le_value_inj; assumption].
Qed.
Lemma digits_bound : forall k w, (uvalue k w < 256 ^ N.of_nat (length w))%N.
Proof. intros k w. destruct k; first [apply be_value_lt | apply le_value_lt]. Qed.

(** The encoder outputs those digits, whatever the buffers. *)
Theorem C05_encode : forall k n,
  (n < 256 ^ N.of_nat (uwidth k))%N ->
  exists w, length w = uwidth k /\ uvalue k w = n /\
    (forall w', length w' = uwidth k -> uvalue k w' = n -> w' = w) /\
    exists f0, forall fuel bufs, f0 + room bufs < fuel ->
    exists s1 s,
      enc_start (uenc k) fuel num_enc_new n = (s1, Ok tt) /\
      drain (uenc k) fuel s1 [] bufs = (s, firstn (room bufs) w, Ok tt) /\
      (enc_idle (uenc k) s = true <-> uwidth k <= room bufs /\ bufs <> []).
Proof.
  intros k n L. destruct (digits_total k L) as (w & WL & WV).
  exists w. split; auto. split; auto. split.
  - intros w' L' V'. apply (digits_unique k); congruence.
  - destruct (number_encode w n (@unum_enc k)) as (f0 & H); [split; auto| |].
    + rewrite WL. destruct k; cbn; lia.
    + exists f0. rewrite WL in H. exact H.
Qed.
Print Assumptions C05_encode.
(** The decoder returns the number whose digits it is given, for every string of digits, any
    chunking and anything that follows; and then is ready for the next number. *)
Theorem C05_decode : forall k w extra sched fuel,
  length w = uwidth k -> sched <> [] -> length w <= offered sched ->
  (len (w ++ extra) <= u64_max)%N -> length (w ++ extra) < fuel ->
  exists s s',
    feed (udec k) fuel (udec0 k) (w ++ extra) sched = (s, extra, Ok tt) /\
    dec_idle (udec k) s = true /\ dec_finish (udec k) s = (s', Ok (uvalue k w)) /\
    forall w2 extra2 sched2, length w2 = uwidth k -> sched2 <> [] -> length w2 <= offered sched2 ->
    (len (w2 ++ extra2) <= u64_max)%N -> length (w2 ++ extra2) < fuel ->
    exists s2, feed (udec k) fuel s' (w2 ++ extra2) sched2 = (s2, extra2, Ok tt) /\
               dec_idle (udec k) s2 = true /\ snd (dec_finish (udec k) s2) = Ok (uvalue k w2).
Proof.
  intros k w extra sched fuel WL SN OF L F.
  destruct (@number_decode _ _ _ _ w (uvalue k w) extra sched fuel _ (@unum_dec k) (unum_fresh k) (conj WL eq_refl) SN OF L F)
    as (s & X1 & id & s' & X2 & R).
  exists s, s'. split; auto. split; auto. split; auto.
  intros w2 extra2 sched2 WL2 SN2 OF2 L2 F2.
  destruct (@number_decode _ _ _ _ w2 (uvalue k w2) extra2 sched2 fuel _ (@unum_dec k) R (conj WL2 eq_refl) SN2 OF2 L2 F2)
    as (s2 & Y1 & id2 & s3 & Y2 & _).
  exists s2. rewrite Y2. auto.
Qed.
Print Assumptions C05_decode.
(** Hence encoding and decoding are inverse. *)
Theorem C05_inverse : forall k,
  (forall n, (n < 256 ^ N.of_nat (uwidth k))%N ->
   exists f0 w, length w = uwidth k /\ forall fuel, f0 < fuel ->
     snd (encode_into_bytes (uenc k) fuel num_enc_new n) = Ok w /\
     snd (decode_from_bytes (udec k) fuel (udec0 k) w) = Ok n) /\
  (forall w, length w = uwidth k ->
   exists f0 n, (n < 256 ^ N.of_nat (uwidth k))%N /\ forall fuel, f0 < fuel ->
     snd (decode_from_bytes (udec k) fuel (udec0 k) w) = Ok n /\
     snd (encode_into_bytes (uenc k) fuel num_enc_new n) = Ok w).
Proof.
  intros k.
  assert (A : forall w n, num_bytes k n w -> exists f0, forall fuel, f0 < fuel ->
     snd (encode_into_bytes (uenc k) fuel num_enc_new n) = Ok w /\
     snd (decode_from_bytes (udec k) fuel (udec0 k) w) = Ok n).
  { intros w n [WL WV]. destruct (@C41_encode_into_bytes N (CU k) w n I eq_refl (conj WL WV)) as (f0 & H).
    exists (f0 + length w). intros fuel F. split.
    - destruct (H fuel F) as (s & X & _). cbn in X. now rewrite X.
    - apply (@C39_complete N (CU k) w n fuel I); [left; reflexivity|split; auto|lia]. }
  split.
  - intros n L. destruct (digits_total k L) as (w & W). destruct (A _ _ W) as (f0 & H).
    exists f0, w. split; [apply W|]. auto.
  - intros w WL. destruct (A w (uvalue k w) (conj WL eq_refl)) as (f0 & H).
    exists f0, (uvalue k w). split; [rewrite <- WL; apply digits_bound|].
    intros fuel F. destruct (H fuel F); auto.
Qed.
Print Assumptions C05_inverse.
Example C05_example :
  (0x0102 < 256 ^ N.of_nat (uwidth NU16be))%N /\
  snd (encode_into_bytes (uenc NU16be) 2000 num_enc_new 0x0102%N) = Ok [x01; x02] /\
  snd (encode_into_bytes (uenc NU16le) 2000 num_enc_new 0x0102%N) = Ok [x02; x01] /\
  snd (decode_from_bytes (udec NU24le) 2000 (udec0 NU24le) [x01; x02; xff]) = Ok 0xff0201%N.
Proof. repeat split; vm_compute; reflexivity. Qed.

(** ** C06: the range check of the odd widths. *)

Definition odd_width (k : unum) : Prop :=
  In k [NU24be; NU24le; NU40be; NU40le; NU48be; NU48le; NU56be; NU56le].

(** Refused exactly when out of range, with [InvalidInput], in any state, leaving the encoder
    as it was. *)
Theorem C06_range_check : forall k fuel s n, odd_width k ->
  (256 ^ N.of_nat (uwidth k) <= n)%N ->
  enc_start (uenc k) fuel s n = (s, Err InvalidInput).
Proof.
  intros k fuel s n K L. cbn in K.
  decompose [or] K; try contradiction; subst k; cbn [uenc enc_start num_encoder];
    unfold U24beEncoder, U24leEncoder, U40beEncoder, U40leEncoder, U48beEncoder, U48leEncoder,
      U56beEncoder, U56leEncoder, num_encoder; cbn [enc_start]; unfold max_item;
    cbn in L;
    match goal with |- context [(?n <=? ?m)%N] => replace (n <=? m)%N with false by lia end;
    reflexivity.
Qed.
Print Assumptions C06_range_check.
(** Numbers in range are accepted by an encoder that is idle. *)
Theorem C06_accepted : forall k s n, odd_width k ->
  (n < 256 ^ N.of_nat (uwidth k))%N -> enc_idle (uenc k) s = true ->
  exists f0, forall fuel, f0 <= fuel ->
  exists s1, enc_start (uenc k) fuel s n = (s1, Ok tt) /\ enc_idle (uenc k) s1 = false.
Proof.
  intros k s n _ L id. destruct (digits_total k L) as (w & W).
  assert (R : bytes_eidle s).
  { destruct s as [[b|] off]; [|reflexivity]. destruct k; discriminate. }
  destruct (@unum_enc k _ _ W) as (f0 & AC). exists f0. intros fuel F.
  destruct (AC s R fuel F) as (s1 & X1 & EM). exists s1. split; auto.
  destruct (enc_idle (uenc k) s1) eqn:id1; auto.
  destruct (emits_idle EM id1) as (E & _). destruct W as [WL _]. rewrite E in WL.
  destruct k; discriminate.
Qed.
Print Assumptions C06_accepted.
Example C06_example :
  snd (enc_start (uenc NU24be) 1 num_enc_new 0x1000000%N) = Err InvalidInput /\
  snd (enc_start (uenc NU24be) 1 num_enc_new 0xffffff%N) = Ok tt /\
  snd (enc_start (uenc NU56le) 1 num_enc_new (2 ^ 56)%N) = Err InvalidInput /\
  snd (enc_start (uenc NU56le) 1 num_enc_new (2 ^ 56 - 1)%N) = Ok tt.
Proof. repeat split; vm_compute; reflexivity. Qed.

(** ** C07: signed numbers and floats. *)

Theorem C07_signed_encode : forall k z,
  (- 2 ^ (8 * Z.of_nat (swidth k) - 1) <= z < 2 ^ (8 * Z.of_nat (swidth k) - 1))%Z ->
  exists w, length w = swidth k /\
    (* the digits of [z] modulo [2 ^ bits] *)
    (Z.of_N (svalue k w) = z mod 2 ^ (8 * Z.of_nat (swidth k)))%Z /\
    exists f0, forall fuel bufs, f0 + room bufs < fuel ->
    exists s1 s,
      enc_start (senc k) fuel num_enc_new z = (s1, Ok tt) /\
      drain (senc k) fuel s1 [] bufs = (s, firstn (room bufs) w, Ok tt) /\
      (enc_idle (senc k) s = true <-> swidth k <= room bufs /\ bufs <> []).
Proof.
  intros k z L.
  assert (X : exists w, length w = swidth k /\ twos_complement (swidth k) z (svalue k w)).
  { destruct (twos_total (width := swidth k) (z := z)) as [T B]; [destruct k; cbn; lia|exact L|].
    destruct k; cbn [swidth svalue] in *;
      lazymatch type of T with twos_complement ?m ?z ?u =>
        first [ destruct (ube_total m B) as [WL WV]; exists (write_be m u); split; [exact WL|];
                change (be_value (write_be m u) = u) in WV; rewrite WV; exact T
              | destruct (ule_total m B) as [WL WV]; exists (write_le m u); split; [exact WL|];
                change (le_value (write_le m u) = u) in WV; rewrite WV; exact T ] end. }
  destruct X as (w & WL & T). exists w. split; auto. split.
  - destruct T as (_ & T1 & T2). apply Z.mod_unique with (q := if (z <? 0)%Z then (-1)%Z else 0%Z);
      [left; lia|]. destruct T2, (z <? 0)%Z eqn:?; lia.
  - destruct (number_encode w z (@snum_enc k)) as (f0 & H); [split; auto| |].
    + rewrite WL. destruct k; cbn; lia.
    + exists f0. rewrite WL in H. exact H.
Qed.
Print Assumptions C07_signed_encode.
Theorem C07_signed_decode : forall k w z extra sched fuel,
  length w = swidth k -> 
  (- 2 ^ (8 * Z.of_nat (swidth k) - 1) <= z < 2 ^ (8 * Z.of_nat (swidth k) - 1))%Z ->
  (Z.of_N (svalue k w) = z mod 2 ^ (8 * Z.of_nat (swidth k)))%Z ->
  sched <> [] -> length w <= offered sched ->
  (len (w ++ extra) <= u64_max)%N -> length (w ++ extra) < fuel ->
  exists s,
    feed (sdec k) fuel (sdec0 k) (w ++ extra) sched = (s, extra, Ok tt) /\
    dec_idle (sdec k) s = true /\ snd (dec_finish (sdec k) s) = Ok z.
Proof.
  intros k w z extra sched fuel WL R V SN OF L F.
  assert (T : twos_complement (swidth k) z (svalue k w)).
  { assert (P : (2 ^ (8 * Z.of_nat (swidth k)) = 2 * 2 ^ (8 * Z.of_nat (swidth k) - 1))%Z).
    { rewrite <- Z.pow_succ_r by (destruct k; cbn; lia). f_equal. lia. }
    set (M := (2 ^ (8 * Z.of_nat (swidth k) - 1))%Z) in *.
    split; [exact R|]. fold M. rewrite P in *. rewrite V.
    pose proof (Z.mod_pos_bound z (2 * M)) as B.
    split; [lia|].
    destruct (Z.lt_ge_cases z 0).
    - right. rewrite <- (Z.mod_small (z + 2 * M) (2 * M)) by lia.
      replace (z + 2 * M)%Z with (z + 1 * (2 * M))%Z by lia. now rewrite Z.mod_add by lia.
    - left. apply Z.mod_small. lia. }
  destruct (@number_decode _ _ _ _ w z extra sched fuel _ (@snum_dec k) (snum_fresh k) (conj WL T) SN OF L F)
    as (s & X1 & id & s' & X2 & _).
  exists s. rewrite X2. auto.
Qed.
Print Assumptions C07_signed_decode.
Example C07_example :
  (* the most negative numbers, and -1 *)
  snd (encode_into_bytes (senc NI16be) 2000 num_enc_new (-32768)%Z) = Ok [x80; x00] /\
  snd (encode_into_bytes (senc NI32le) 2000 num_enc_new (-1)%Z) = Ok [xff; xff; xff; xff] /\
  snd (decode_from_bytes (sdec NI16be) 2000 (sdec0 NI16be) [x80; x00]) = Ok (-32768)%Z /\
  snd (decode_from_bytes (sdec NI8) 2000 (sdec0 NI8) [xff]) = Ok (-1)%Z.
Proof. repeat split; vm_compute; reflexivity. Qed.
(** Floats are modelled by their bit patterns, so C05 for [NF32be .. NF64le] says that the bytes are
    the bits, for every pattern including NaNs and both zeros. *)
Theorem C07_float_bits : forall k, In k [NF32be; NF32le; NF64be; NF64le] ->
  (forall bits, (bits < 2 ^ (8 * N.of_nat (uwidth k)))%N ->
   exists f0 w, length w = uwidth k /\ uvalue k w = bits /\ forall fuel, f0 < fuel ->
     snd (encode_into_bytes (uenc k) fuel num_enc_new bits) = Ok w /\
     snd (decode_from_bytes (udec k) fuel (udec0 k) w) = Ok bits).
Proof.
  intros k _ bits L.
  assert (L' : (bits < 256 ^ N.of_nat (uwidth k))%N).
  { change 256%N with (2 ^ 8)%N. now rewrite <- N.pow_mul_r. }
  destruct (digits_total k L') as (w & WL & WV).
  destruct (proj2 (C05_inverse k) w WL) as (f0 & n & _ & H).
  assert (n = bits).
  { destruct (H (Datatypes.S (f0 + length w)) ltac:(lia)) as [X _].
    assert (Y : snd (decode_from_bytes (udec k) (Datatypes.S (f0 + length w)) (udec0 k) w) = Ok bits).
    { apply (@C39_complete N (CU k) w bits _ I); [left; reflexivity|split; auto|lia]. }
    congruence. }
  subst n. exists f0, w. split; auto. split; auto. intros fuel F. destruct (H fuel F); auto.
Qed.
Print Assumptions C07_float_bits.
Example C07_nan : (* a signalling NaN with a payload *)
  snd (encode_into_bytes (uenc NF32be) 2000 num_enc_new 0x7f800001%N) = Ok [x7f; x80; x00; x01] /\
  snd (decode_from_bytes (udec NF32be) 2000 (udec0 NF32be) [x7f; x80; x00; x01]) = Ok 0x7f800001%N.
Proof. split; vm_compute; reflexivity. Qed.

(** ** C34: text.

    [utf8 s l] (file [Utf8Spec]) is Unicode's definition of "the bytes [l] are the UTF-8 form of the
    sequence of scalar values [s]". *)

(** For any decoder of byte strings, the text decoder gives the text of these bytes, or [InvalidInput]
    when there is none; and is otherwise that decoder. *)
Theorem C34_decoder : forall S (D : Decoder S (list byte)) s s' b,
  dec_finish D s = (s', Ok b) ->
  (forall t, snd (dec_finish (utf8_decoder D) s) = Ok t <-> utf8 t b) /\
  (snd (dec_finish (utf8_decoder D) s) = Err InvalidInput <-> forall t, ~ utf8 t b) /\
  (forall fuel buf e, dec_decode (utf8_decoder D) fuel s buf e = dec_decode D fuel s buf e) /\
  dec_idle (utf8_decoder D) s = dec_idle D s /\ dec_req (utf8_decoder D) s = dec_req D s.
Proof.
  intros S D s s' b X. split; [|split; [|auto]].
  - intros t. cbn. rewrite X. cbn. split.
    + intros H. apply from_utf8_sound. destruct (str_from_utf8 b); cbn in H; congruence.
    + intros H. now rewrite (from_utf8_complete H).
  - cbn. rewrite X. cbn. rewrite <- from_utf8_none.
    destruct (str_from_utf8 b); cbn; split; congruence.
Qed.
Print Assumptions C34_decoder.
(** A whole stream: the outcome depends on the concatenation of the chunks alone, so characters
    may be split anywhere. *)
Theorem C34_chunks : forall w sched fuel,
  fits w -> ends sched -> announced (length w) sched = true -> length w < fuel ->
  exists s,
    feed (utf8_decoder rem_decoder) fuel rem_dec_new w sched = (s, skipn (offered sched) w, Ok tt) /\
    dec_idle (utf8_decoder rem_decoder) s = true /\
    (forall t, snd (dec_finish (utf8_decoder rem_decoder) s) = Ok t <-> utf8 t w) /\
    (snd (dec_finish (utf8_decoder rem_decoder) s) = Err InvalidInput <-> forall t, ~ utf8 t w).
Proof.
  intros w sched fuel FI EN AN F.
  destruct (@C02_chunk_invariance_eos _ CRest w w sched fuel I eq_refl (conj eq_refl FI) EN F)
    as (s & X1 & X2 & X3). 
  assert (FE : forall sched w s0, feed (utf8_decoder rem_decoder) fuel s0 w sched = feed rem_decoder fuel s0 w sched).
  { induction sched0 as [|[n h] sc IH]; intros; auto. cbn [feed].
    change (dec_decode (utf8_decoder rem_decoder)) with (dec_decode rem_decoder).
    change (dec_idle (utf8_decoder rem_decoder)) with (dec_idle rem_decoder).
    destruct (dec_idle rem_decoder s0); auto.
    destruct (dec_decode rem_decoder fuel s0 (firstn n w0) (hint_eos h (skipn n w0))) as [? []]; auto. }
  exists s. rewrite FE. split; auto.
  assert (id : dec_idle rem_decoder s = true) by exact (eq_trans X2 AN). split; auto.
  specialize (X3 id). destruct (dec_finish rem_decoder s) as [s' r] eqn:Y.
  change (dec_finish (decoder CRest) s) with (dec_finish rem_decoder s) in X3. rewrite Y in X3.
  cbn in X3. subst r.
  destruct (C34_decoder _ _ Y) as (A & B & _). auto.
Qed.
Print Assumptions C34_chunks.
(** The encoder outputs the UTF-8 form, and decoding it gives the string back. *)
Theorem C34_encoder : forall t, Forall scalar t -> (len (str_as_bytes t) <= isize_max)%N ->
  exists f0 w, utf8 t w /\ (forall w', utf8 t w' -> w' = w) /\
  forall fuel, f0 < fuel ->
    snd (encode_into_bytes utf8_encoder fuel utf8_enc_new t) = Ok w /\
    snd (decode_from_bytes (utf8_decoder rem_decoder) fuel rem_dec_new w) = Ok t.
Proof.
  intros t SC FI. pose proof (str_as_bytes_utf8 SC) as U. set (w := str_as_bytes t) in *.
  assert (W : wire CUtf8Rest w t) by (split; auto).
  destruct (@C41_encode_into_bytes _ CUtf8Rest w t I eq_refl W) as (f0 & H).
  exists (f0 + length w), w. split; auto. split; [intros w' U'; now rewrite (utf8_unique U')|].
  intros fuel F. split.
  - destruct (H fuel F) as (s & X & _). exact (f_equal snd X).
  - apply (@C39_complete _ CUtf8Rest w t fuel I); [right; reflexivity|split; auto|lia].
Qed.
Print Assumptions C34_encoder.
Example C34_example :
  Forall scalar [0x68; 0xe9; 0x20ac; 0x1f600]%N /\
  snd (encode_into_bytes utf8_encoder 2000 utf8_enc_new [0x68; 0xe9; 0x20ac; 0x1f600]%N)
    = Ok [x68; xc3; xa9; xe2; x82; xac; xf0; x9f; x98; x80] /\
  snd (decode_from_bytes (utf8_decoder rem_decoder) 2000 rem_dec_new [xc3; xa9]) = Ok [0xe9%N] /\
  (* an over-long form, a surrogate *)
  snd (decode_from_bytes (utf8_decoder rem_decoder) 2000 rem_dec_new [xc0; x80]) = Err InvalidInput /\
  snd (decode_from_bytes (utf8_decoder rem_decoder) 2000 rem_dec_new [xed; xa0; x80]) = Err InvalidInput.
Proof. split; [repeat constructor; lia|]. repeat split; vm_compute; reflexivity. Qed.
