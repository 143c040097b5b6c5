(** * UTF-8: encoding and validation agree with [Utf8Spec]. *)
From Verif Require Export Utf8Spec Utf8 NumProofs.
Set Implicit Arguments.
Local Open Scope N_scope.

Lemma utf8_char_scalar : forall c l, utf8_char c l -> scalar c.
Proof. intros c l H. destruct H; split; lia. Qed.
Lemma utf8_scalar : forall s l, utf8 s l -> Forall scalar s.
Proof. induction 1; constructor; auto. eapply utf8_char_scalar; eauto. Qed.

(** Constants as shifted tags. *)
Lemma lor_C0 : forall v, v < 32 -> N.lor 0xC0 v = 0xC0 + v.
Proof. intros v L. change 0xC0 with (N.shiftl 6 5) at 1. rewrite lor_shift_add; auto. Qed.
Lemma lor_80 : forall v, v < 64 -> N.lor 0x80 v = 0x80 + v.
Proof. intros v L. change 0x80 with (N.shiftl 2 6) at 1. rewrite lor_shift_add; auto. Qed.
Lemma lor_E0 : forall v, v < 16 -> N.lor 0xE0 v = 0xE0 + v.
Proof. intros v L. change 0xE0 with (N.shiftl 14 4) at 1. rewrite lor_shift_add; auto. Qed.
Lemma lor_F0 : forall v, v < 8 -> N.lor 0xF0 v = 0xF0 + v.
Proof. intros v L. change 0xF0 with (N.shiftl 30 3) at 1. rewrite lor_shift_add; auto. Qed.
Lemma land_3F : forall v, N.land v 0x3F = v mod 64.
Proof. intros v. change 0x3F with (N.ones 6). now rewrite N.land_ones. Qed.
Lemma land_1F : forall v, N.land v 0x1F = v mod 32.
Proof. intros v. change 0x1F with (N.ones 5). now rewrite N.land_ones. Qed.
Lemma land_0F : forall v, N.land v 0x0F = v mod 16.
Proof. intros v. change 0x0F with (N.ones 4). now rewrite N.land_ones. Qed.
Lemma land_07 : forall v, N.land v 0x07 = v mod 8.
Proof. intros v. change 0x07 with (N.ones 3). now rewrite N.land_ones. Qed.
Lemma shiftr6 : forall v, N.shiftr v 6 = v / 64.
Proof. intros. now rewrite N.shiftr_div_pow2. Qed.
Lemma shiftr12 : forall v, N.shiftr v 12 = v / 64 / 64.
Proof. intros. rewrite N.shiftr_div_pow2, N.div_div by lia. reflexivity. Qed.
Lemma shiftr18 : forall v, N.shiftr v 18 = v / 64 / 64 / 64.
Proof. intros. rewrite N.shiftr_div_pow2, !N.div_div by lia. reflexivity. Qed.

Lemma trail_byte : forall v, v < 64 -> trail (byte_of_N (N.lor 0x80 v)) v.
Proof.
  intros v L. split; auto. rewrite to_byte_of, lor_80 by auto. apply N.mod_small. lia.
Qed.

Lemma div64 : forall v, v = v / 64 * 64 + v mod 64 /\ v mod 64 < 64.
Proof.
  intros v. pose proof (N.div_mod v 64 ltac:(lia)). pose proof (N.mod_lt v 64 ltac:(lia)). lia.
Qed.

Lemma char_to_bytes_utf8 : forall c, scalar c -> utf8_char c (char_to_bytes c).
Proof.
  intros c [L NS]. unfold char_to_bytes.
  destruct (N.ltb_spec c 0x80) as [C|C].
  { constructor; auto. rewrite to_byte_of. apply N.mod_small. lia. }
  rewrite shiftr6, shiftr12, shiftr18, !land_3F.
  destruct (div64 c) as [A0 B0]. destruct (div64 (c / 64)) as [A1 B1].
  destruct (div64 (c / 64 / 64)) as [A2 B2].
  remember (c / 64 / 64 / 64) as q3. remember (c / 64 / 64) as q2. remember (c / 64) as q1.
  remember (c mod 64) as r0. remember (q1 mod 64) as r1. remember (q2 mod 64) as r2.
  destruct (N.ltb_spec c 0x800) as [C2|C2].
  { econstructor; [lia| | |apply trail_byte; auto| ].
    - rewrite to_byte_of, lor_C0 by lia. apply N.mod_small. lia.
    - lia.
    - lia. }
  destruct (N.ltb_spec c 0x10000) as [C3|C3].
  { econstructor; [lia|auto| | |apply trail_byte; auto|apply trail_byte; auto| ].
    - rewrite to_byte_of, lor_E0 by lia. apply N.mod_small. lia.
    - lia.
    - lia. }
  econstructor; [lia| | |apply trail_byte; auto|apply trail_byte; auto|apply trail_byte; auto| ].
  - rewrite to_byte_of, lor_F0 by lia. apply N.mod_small. lia.
  - lia.
  - lia.
Qed.
Lemma str_as_bytes_utf8 : forall s, Forall scalar s -> utf8 s (str_as_bytes s).
Proof.
  induction 1; cbn; constructor; auto. now apply char_to_bytes_utf8.
Qed.

(** The form of a string is unique, in both directions. *)
Lemma utf8_char_unique : forall c l, utf8_char c l -> l = char_to_bytes c.
Proof.
  assert (B : forall a b, Byte.to_N a = Byte.to_N b -> a = b).
  { intros a b E. rewrite <- (byte_of_to a), <- (byte_of_to b). now rewrite E. }
  intros c l H. pose proof (char_to_bytes_utf8 (utf8_char_scalar H)) as H'.
  destruct H; inversion H'; subst; unfold trail in *; try lia; repeat f_equal; apply B; lia.
Qed.
Lemma utf8_unique : forall s l, utf8 s l -> l = str_as_bytes s.
Proof. induction 1; cbn; auto. rewrite IHutf8. f_equal. now apply utf8_char_unique. Qed.

Ltac conts :=
  repeat match goal with
  | H : trail ?b ?v |- _ => destruct H
  end.

Lemma mod_sub : forall x a v m, x = a * m + v -> v < m -> x mod m = v.
Proof. intros x a v m -> L. rewrite N.add_comm, N.mod_add by lia. now apply N.mod_small. Qed.

Lemma is_cont_spec : forall b, is_cont b = true -> trail b (cont_bits b).
Proof.
  intros b H. unfold is_cont, in_range in H. unfold cont_bits. rewrite land_3F. unfold trail.
  assert (E : Byte.to_N b = 2 * 64 + (Byte.to_N b - 128)) by lia.
  rewrite (mod_sub _ E); lia.
Qed.
Lemma trail_cont : forall b v, trail b v -> is_cont b = true /\ cont_bits b = v.
Proof.
  intros b v [E L]. unfold is_cont, in_range, cont_bits. rewrite land_3F. split; [lia|].
  apply mod_sub with 2; lia.
Qed.

(** The decoded code points. *)
Lemma code2 : forall a b, b < 64 -> N.lor (N.shiftl a 6) b = a * 64 + b.
Proof. intros. rewrite lor_shift_add; auto. Qed.
Lemma code3 : forall a b c, b < 64 -> c < 64 ->
  N.lor (N.shiftl a 12) (N.lor (N.shiftl b 6) c) = (a * 64 + b) * 64 + c.
Proof. intros. rewrite code2 by auto. rewrite lor_shift_add; change (2 ^ 12) with 4096; lia. Qed.
Lemma code4 : forall a b c d, b < 64 -> c < 64 -> d < 64 ->
  N.lor (N.shiftl a 18) (N.lor (N.shiftl b 12) (N.lor (N.shiftl c 6) d))
  = ((a * 64 + b) * 64 + c) * 64 + d.
Proof. intros. rewrite code3 by auto. rewrite lor_shift_add; change (2 ^ 18) with 262144; lia. Qed.

(** Every valid form is decoded to its string. *)
Lemma from_utf8_complete : forall s l, utf8 s l -> str_from_utf8 l = Some s.
Proof.
  induction 1 as [|c s l l' HC H IH]; [reflexivity|].
  destruct HC as [c b0 C E|c b0 b1 v0 v1 C E L T1 ->|c b0 b1 b2 v0 v1 v2 C NS E L T1 T2 ->
                 |c b0 b1 b2 b3 v0 v1 v2 v3 C E L T1 T2 T3 ->]; cbn [app str_from_utf8].
  - rewrite E. replace (c <? 128) with true by lia. now rewrite IH.
  - destruct (trail_cont T1) as [K1 V1]. unfold in_range. rewrite E.
    replace (192 + v0 <? 128) with false by lia.
    assert (v0 >= 2) by (destruct T1; lia).
    replace ((194 <=? 192 + v0) && (192 + v0 <=? 223)) with true by lia.
    rewrite K1, V1, IH. cbn [option_map]. do 2 f_equal.
    rewrite land_1F. rewrite (@mod_sub (192 + v0) 6 v0 32) by lia. apply code2. destruct T1; lia.
  - destruct (trail_cont T1) as [K1 V1]. destruct (trail_cont T2) as [K2 V2].
    unfold in_range. rewrite E.
    replace (224 + v0 <? 128) with false by lia.
    replace ((194 <=? 224 + v0) && (224 + v0 <=? 223)) with false by lia.
    replace ((224 <=? 224 + v0) && (224 + v0 <=? 239)) with true by lia.
    destruct T1 as [T1 T1']. destruct T2 as [T2 T2'].
    match goal with |- context [if ?x && _ then _ else _] => replace x with true end.
    2:{ destruct (N.eqb_spec (224 + v0) 224); [lia|]. destruct (N.eqb_spec (224 + v0) 237); lia. }
    rewrite K2, V1, V2, IH. cbn [andb option_map]. do 2 f_equal.
    rewrite land_0F. rewrite (@mod_sub (224 + v0) 14 v0 16) by lia. apply code3; lia.
  - destruct (trail_cont T1) as [K1 V1]. destruct (trail_cont T2) as [K2 V2].
    destruct (trail_cont T3) as [K3 V3].
    unfold in_range. rewrite E.
    replace (240 + v0 <? 128) with false by lia.
    replace ((194 <=? 240 + v0) && (240 + v0 <=? 223)) with false by lia.
    replace ((224 <=? 240 + v0) && (240 + v0 <=? 239)) with false by lia.
    destruct T1 as [T1 T1']. destruct T2 as [T2 T2']. destruct T3 as [T3 T3'].
    replace ((240 <=? 240 + v0) && (240 + v0 <=? 244)) with true by lia.
    match goal with |- context [if ?x && _ && _ then _ else _] => replace x with true end.
    2:{ destruct (N.eqb_spec (240 + v0) 240); [lia|]. destruct (N.eqb_spec (240 + v0) 244); lia. }
    rewrite K2, K3, V1, V2, V3, IH. cbn [andb option_map]. do 2 f_equal.
    rewrite land_07. rewrite (@mod_sub (240 + v0) 30 v0 8) by lia. apply code4; lia.
Qed.

(** Whatever is decoded is the string of the bytes. *)
Lemma from_utf8_sound_n : forall n l s, (length l <= n)%nat -> str_from_utf8 l = Some s -> utf8 s l.
Proof.
  induction n as [|n IH]; intros l s LN H.
  { destruct l; [|cbn in LN; lia]. injection H as <-. constructor. }
  destruct l as [|b0 l1]; [injection H as <-; constructor|].
  cbn [str_from_utf8] in H. cbn [length] in LN. unfold in_range at 1 2 3 in H.
  set (x := Byte.to_N b0) in *.
  destruct (N.ltb_spec x 128) as [X|X].
  { destruct (str_from_utf8 l1) as [s'|] eqn:E; [|discriminate]. injection H as <-.
    apply (@utf8_cons x s' [b0] l1); [now constructor|]. apply IH; [lia|auto]. }
  destruct ((194 <=? x) && (x <=? 223)) eqn:X2.
  { destruct l1 as [|b1 l2]; [discriminate|]. destruct (is_cont b1) eqn:K1; [|discriminate].
    destruct (str_from_utf8 l2) as [s'|] eqn:E; [|discriminate]. injection H as <-.
    pose proof (is_cont_spec b1 K1) as T1.
    rewrite land_1F, (@mod_sub x 6 (x - 192) 32) by lia. rewrite code2 by apply T1.
    apply (@utf8_cons _ s' [b0; b1] l2).
    - econstructor; [|fold x| |eassumption|reflexivity]; try lia. destruct T1; lia.
    - apply IH; auto. cbn in LN; lia. }
  destruct ((224 <=? x) && (x <=? 239)) eqn:X3.
  { destruct l1 as [|b1 [|b2 l3]]; try discriminate.
    match type of H with (if ?c && _ then _ else _) = _ => destruct c eqn:C1 end; [|discriminate].
    destruct (is_cont b2) eqn:K2; [|discriminate]. cbn [andb] in H.
    destruct (str_from_utf8 l3) as [s'|] eqn:E; [|discriminate]. injection H as <-.
    unfold in_range in C1.
    assert (K1 : is_cont b1 = true).
    { unfold is_cont, in_range.
      destruct (x =? 224); [lia|]. destruct (x =? 237); lia. }
    pose proof (is_cont_spec b1 K1) as T1. pose proof (is_cont_spec b2 K2) as T2.
    rewrite land_0F, (@mod_sub x 14 (x - 224) 16) by lia.
    rewrite code3 by (apply T1 || apply T2).
    apply (@utf8_cons _ s' [b0; b1; b2] l3).
    - destruct T1 as [T1 T1']. destruct T2 as [T2 T2'].
      destruct (N.eqb_spec x 224); [|destruct (N.eqb_spec x 237)];
      (econstructor; [| |fold x| |split; eassumption|split; eassumption|reflexivity]; lia).
    - apply IH; auto. cbn in LN; lia. }
  destruct (in_range 240 244 b0) eqn:X4; [|discriminate].
  unfold in_range in X4. fold x in X4.
  destruct l1 as [|b1 [|b2 [|b3 l4]]]; try discriminate.
  match type of H with (if ?c && _ && _ then _ else _) = _ => destruct c eqn:C1 end; [|discriminate].
  destruct (is_cont b2) eqn:K2; [|discriminate]. destruct (is_cont b3) eqn:K3; [|discriminate].
  cbn [andb] in H.
  destruct (str_from_utf8 l4) as [s'|] eqn:E; [|discriminate]. injection H as <-.
  unfold in_range in C1.
  assert (K1 : is_cont b1 = true).
  { unfold is_cont, in_range.
    destruct (x =? 240); [lia|]. destruct (x =? 244); lia. }
  pose proof (is_cont_spec b1 K1) as T1. pose proof (is_cont_spec b2 K2) as T2.
  pose proof (is_cont_spec b3 K3) as T3.
  rewrite land_07, (@mod_sub x 30 (x - 240) 8) by lia.
  rewrite code4 by (apply T1 || apply T2 || apply T3).
  apply (@utf8_cons _ s' [b0; b1; b2; b3] l4).
  - destruct T1 as [T1 T1']. destruct T2 as [T2 T2']. destruct T3 as [T3 T3'].
    destruct (N.eqb_spec x 240); [|destruct (N.eqb_spec x 244)];
    (econstructor; [|fold x| |split; eassumption|split; eassumption|split; eassumption|reflexivity]; lia).
  - apply IH; auto. cbn in LN; lia.
Qed.
Lemma from_utf8_sound : forall l s, str_from_utf8 l = Some s -> utf8 s l.
Proof. intros. eapply from_utf8_sound_n; eauto. Qed.
Lemma from_utf8_none : forall l, str_from_utf8 l = None <-> forall s, ~ utf8 s l.
Proof.
  intros l. split.
  - intros H s U. apply from_utf8_complete in U. congruence.
  - intros H. destruct (str_from_utf8 l) eqn:E; auto. apply from_utf8_sound in E. elim (H _ E).
Qed.
