(** * The number codecs realise the formats of [NumSpec]. *)
From Verif Require Export NumSpec Fixnum Lib EncPrim DecComb.
Set Implicit Arguments.

Lemma to_N_lt : forall b, (Byte.to_N b < 256)%N.
Proof. intros b. pose proof (Byte.to_N_bounded b). lia. Qed.
Lemma byte_of_to : forall b, byte_of_N (Byte.to_N b) = b.
Proof.
  intros b. unfold byte_of_N. rewrite N.mod_small by apply to_N_lt. now rewrite Byte.of_to_N.
Qed.
Lemma to_byte_of : forall n, Byte.to_N (byte_of_N n) = (n mod 256)%N.
Proof.
  intros n. unfold byte_of_N. destruct (Byte.of_N (n mod 256)) as [b|] eqn:E.
  - now apply Byte.to_of_N.
  - apply Byte.of_N_None_iff in E. pose proof (N.mod_lt n 256). lia.
Qed.

(** ** Positional values *)
Lemma be_value_lt : forall l, (be_value l < 256 ^ N.of_nat (length l))%N.
Proof.
  induction l as [|b l IH]; cbn [be_value length]; [reflexivity|].
  rewrite Nat2N.inj_succ, N.pow_succ_r'. pose proof (to_N_lt b). nia.
Qed.
Lemma le_value_lt : forall l, (le_value l < 256 ^ N.of_nat (length l))%N.
Proof.
  induction l as [|b l IH]; cbn [le_value length]; [reflexivity|].
  rewrite Nat2N.inj_succ, N.pow_succ_r'. pose proof (to_N_lt b). nia.
Qed.
Lemma be_value_app : forall a b,
  be_value (a ++ b) = (be_value a * 256 ^ N.of_nat (length b) + be_value b)%N.
Proof.
  induction a as [|x a IH]; intros b; cbn [be_value app]; [lia|].
  rewrite IH, app_length, Nat2N.inj_add, N.pow_add_r. lia.
Qed.
Lemma le_be_value : forall l, le_value l = be_value (rev l).
Proof.
  induction l as [|b l IH]; cbn [le_value rev]; [reflexivity|].
  rewrite be_value_app. cbn [length be_value]. rewrite IH. change (256 ^ N.of_nat 1)%N with 256%N.
  cbn [length N.of_nat]. rewrite N.pow_0_r. lia.
Qed.

Lemma small_bit : forall b k j, (b < 2 ^ k)%N -> (k <= j)%N -> N.testbit b j = false.
Proof.
  intros b k j L J. destruct (N.eq_dec b 0) as [->|NZ]; [apply N.bits_0|].
  apply N.bits_above_log2. apply N.lt_le_trans with k; auto. apply N.log2_lt_pow2; lia.
Qed.
Lemma lor_shift_add : forall a b k, (b < 2 ^ k)%N -> N.lor (N.shiftl a k) b = (a * 2 ^ k + b)%N.
Proof.
  intros a b k L. rewrite N.shiftl_mul_pow2.
  assert (D : N.land (a * 2 ^ k) b = 0%N).
  { apply N.bits_inj; intros j; rewrite N.land_spec, N.bits_0.
    destruct (N.lt_ge_cases j k) as [J|J].
    - now rewrite N.mul_pow2_bits_low.
    - rewrite (small_bit L J). apply andb_false_r. }
  rewrite <- N.lxor_lor, <- N.add_nocarry_lxor; auto.
Qed.

(** ** Reading *)
Lemma read_be_acc : forall l a,
  fold_left (fun a b => N.lor (N.shiftl a 8) (Byte.to_N b)) l a
  = (a * 256 ^ N.of_nat (length l) + be_value l)%N.
Proof.
  induction l as [|b l IH]; intros a; cbn [fold_left length be_value].
  - rewrite N.pow_0_r. lia.
  - rewrite IH, lor_shift_add by apply to_N_lt. change (2 ^ 8)%N with 256%N.
    rewrite Nat2N.inj_succ, N.pow_succ_r'. lia.
Qed.
Lemma read_be_value : forall l, read_be l = be_value l.
Proof. intros l. unfold read_be. rewrite read_be_acc. lia. Qed.
Lemma read_le_value : forall l, read_le l = le_value l.
Proof. intros l. unfold read_le. now rewrite read_be_value, le_be_value. Qed.

(** ** Writing *)
Lemma write_le_length : forall w n, length (write_le w n) = w.
Proof. induction w; intros; cbn; auto. Qed.
Lemma write_be_length : forall w n, length (write_be w n) = w.
Proof. intros. unfold write_be. now rewrite rev_length, write_le_length. Qed.
Lemma write_le_value : forall w n, le_value (write_le w n) = (n mod 256 ^ N.of_nat w)%N.
Proof.
  induction w as [|w IH]; intros n; cbn [write_le le_value].
  - cbn. now rewrite N.mod_1_r.
  - rewrite IH, to_byte_of, N.shiftr_div_pow2.
    change 255%N with (N.ones 8). rewrite N.land_ones. change (2 ^ 8)%N with 256%N.
    rewrite N.mod_mod by lia. rewrite Nat2N.inj_succ, N.pow_succ_r', N.mod_mul_r; lia.
Qed.
Lemma write_be_value : forall w n, be_value (write_be w n) = (n mod 256 ^ N.of_nat w)%N.
Proof. intros. unfold write_be. now rewrite <- le_be_value, write_le_value. Qed.

Lemma le_value_inj : forall a b, length a = length b -> le_value a = le_value b -> a = b.
Proof.
  induction a as [|x a IH]; intros [|y b] L E; cbn [length le_value] in *; try discriminate; auto.
  pose proof (to_N_lt x). pose proof (to_N_lt y).
  assert (Byte.to_N x = Byte.to_N y /\ le_value a = le_value b) as [A B] by lia.
  f_equal; [|apply IH; auto; lia].
  rewrite <- (byte_of_to x), <- (byte_of_to y). now rewrite A.
Qed.
Lemma be_value_inj : forall a b, length a = length b -> be_value a = be_value b -> a = b.
Proof.
  intros a b L E. rewrite <- (rev_involutive a), <- (rev_involutive b). f_equal.
  apply le_value_inj; [now rewrite !rev_length|]. now rewrite !le_be_value, !rev_involutive.
Qed.

(** ** Formats *)
Definition ufmt (value : list byte -> N) (width : nat) : format N :=
  fun w n => length w = width /\ value w = n.
Definition sfmt (value : list byte -> N) (width : nat) : format Z :=
  fun w z => length w = width /\ twos_complement width z (value w).

Definition num_ready (width : nat) (st : NumDec) : Prop :=
  cd_off st = 0 /\ length (cd_bytes st) = width.
Lemma num_ready_new : forall width, num_ready width (num_dec_new width).
Proof. intros; split; cbn; auto. apply repeat_length. Qed.

Lemma num_decodes : forall T (item : list byte -> T) (fmt : format T) width,
  width <= 8 ->
  (forall w t, fmt w t -> length w = width /\ item w = t) ->
  decodes (num_decoder item) SD fmt (num_ready width) (num_ready width).
Proof.
  intros T item fmt width W H [b off] w t [R1 R2] F. cbn in R1, R2. subst off.
  destruct (H w t F) as [L <-]. apply num_parses.
  eapply parses_post; [|eapply (@copy_decodes _ vec_box vec_box_ok b)].
  - intros [b' off'] (A & l & B & C). cbn in *. split; cbn; congruence.
  - cbn. unfold len, isize_max. lia.
  - split; cbn; auto. exists b; auto.
  - split; cbn; auto. congruence.
Qed.
Lemma num_enc_encodes : forall T (item : T -> list byte + ErrorKind) (fmt : format T) width,
  width <= 8 ->
  (forall w t, fmt w t -> length w = width /\ item t = inl w) ->
  encodes (num_encoder item) fmt (@bytes_eidle (list byte)) (@bytes_eidle (list byte)).
Proof.
  intros T item fmt width W H w t F. apply num_encodes.
  destruct (H w t F) as [L E]. split; auto. unfold len, isize_max. lia.
Qed.

Lemma ube_write : forall width w n, ufmt be_value width w n -> write_be width n = w.
Proof.
  intros width w n [L <-]. apply be_value_inj; [now rewrite write_be_length|].
  rewrite write_be_value. apply N.mod_small. rewrite <- L. apply be_value_lt.
Qed.
Lemma ule_write : forall width w n, ufmt le_value width w n -> write_le width n = w.
Proof.
  intros width w n [L <-]. apply le_value_inj; [now rewrite write_le_length|].
  rewrite write_le_value. apply N.mod_small. rewrite <- L. apply le_value_lt.
Qed.

Lemma pow256 : forall n, (256 ^ n = 2 ^ (8 * n))%N.
Proof. intros n. change 256%N with (2 ^ 8)%N. now rewrite <- N.pow_mul_r. Qed.
Lemma pow256Z : forall n, (Z.of_N (256 ^ N.of_nat n) = 2 ^ (8 * Z.of_nat n))%Z.
Proof. intros n. rewrite pow256, N2Z.inj_pow. f_equal. lia. Qed.

Lemma twos_pow : forall width, 0 < width ->
  (2 ^ (8 * Z.of_nat width) = 2 * 2 ^ (8 * Z.of_nat width - 1))%Z.
Proof. intros width W. rewrite <- Z.pow_succ_r by lia. f_equal. lia. Qed.
Lemma as_unsigned_twos : forall width z u, 0 < width -> twos_complement width z u ->
  as_unsigned width z = u.
Proof.
  intros width z u W (R & B & E). unfold as_unsigned. pose proof (twos_pow W) as T.
  assert (X : (z mod 2 ^ (8 * Z.of_nat width) = Z.of_N u)%Z).
  { destruct E as [E|E]; rewrite E in *.
    - apply Z.mod_small. lia.
    - rewrite <- (Z_mod_plus_full z 1). rewrite Z.mul_1_l. apply Z.mod_small. lia. }
  rewrite X. lia.
Qed.
Lemma as_signed_twos : forall width z u, 0 < width -> twos_complement width z u ->
  as_signed width u = z.
Proof.
  intros width z u W (R & B & E). unfold as_signed. pose proof (twos_pow W) as T.
  assert (P : Z.of_N (2 ^ (8 * N.of_nat width - 1)) = (2 ^ (8 * Z.of_nat width - 1))%Z).
  { rewrite N2Z.inj_pow. f_equal. lia. }
  destruct (N.ltb_spec u (2 ^ (8 * N.of_nat width - 1))); lia.
Qed.

(** Every number in range has a representation of the width. *)
Lemma ube_total : forall width n, (n < 256 ^ N.of_nat width)%N -> ufmt be_value width (write_be width n) n.
Proof.
  intros width n L. split; [apply write_be_length|]. rewrite write_be_value. now apply N.mod_small.
Qed.
Lemma ule_total : forall width n, (n < 256 ^ N.of_nat width)%N -> ufmt le_value width (write_le width n) n.
Proof.
  intros width n L. split; [apply write_le_length|]. rewrite write_le_value. now apply N.mod_small.
Qed.
Lemma twos_total : forall width z, 0 < width ->
  (- 2 ^ (8 * Z.of_nat width - 1) <= z < 2 ^ (8 * Z.of_nat width - 1))%Z ->
  twos_complement width z (as_unsigned width z) /\ (as_unsigned width z < 256 ^ N.of_nat width)%N.
Proof.
  intros width z W R. pose proof (twos_pow W) as T.
  pose proof (Z.mod_pos_bound z (2 ^ (8 * Z.of_nat width)) ltac:(lia)) as B.
  assert (X : Z.of_N (as_unsigned width z) = (z mod 2 ^ (8 * Z.of_nat width))%Z).
  { unfold as_unsigned. rewrite Z2N.id; lia. }
  split.
  - split; auto. split; [lia|]. rewrite X.
    destruct (Z_lt_le_dec z 0).
    + right. rewrite <- (Z_mod_plus_full z 1). rewrite Z.mul_1_l. apply Z.mod_small. lia.
    + left. apply Z.mod_small. lia.
  - pose proof (pow256Z width). lia.
Qed.
