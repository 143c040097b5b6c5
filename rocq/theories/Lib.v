(** * Lemmas about lists and numbers used by the proofs. *)
From Verif Require Export Base.
From Coq Require Export Lia.
From Coq Require Export ZifyBool ZifyNat ZifyN.
Set Implicit Arguments.

Lemma len_app : forall a b, len (a ++ b) = (len a + len b)%N.
Proof. intros; unfold len; rewrite app_length; lia. Qed.
Lemma len_nil : len [] = 0%N.
Proof. reflexivity. Qed.
Lemma len_cons : forall x a, len (x :: a) = (1 + len a)%N.
Proof. intros; unfold len; cbn [length]; lia. Qed.
Lemma len_0 : forall a, len a = 0%N -> a = [].
Proof. intros [|]; [reflexivity|rewrite len_cons; lia]. Qed.
Lemma len_length : forall a, N.to_nat (len a) = length a.
Proof. intros; unfold len; lia. Qed.

Lemma firstn_app_exact : forall {A} (a b : list A), firstn (length a) (a ++ b) = a.
Proof. intros; rewrite firstn_app, firstn_all, Nat.sub_diag; cbn; apply app_nil_r. Qed.
Lemma skipn_app_exact : forall {A} (a b : list A), skipn (length a) (a ++ b) = b.
Proof. intros; rewrite skipn_app, skipn_all, Nat.sub_diag; reflexivity. Qed.
Lemma slice_from_app : forall {A} (a b : list A), slice_from (length a) (a ++ b) = Some b.
Proof.
  intros; unfold slice_from; rewrite app_length.
  replace (length a <=? length a + length b) with true by lia.
  now rewrite skipn_app_exact.
Qed.
Lemma slice_from_0 : forall {A} (a : list A), slice_from 0 a = Some a.
Proof. reflexivity. Qed.

Lemma app_split_le : forall {A} (w t buf rest : list A),
  w ++ t = buf ++ rest -> length w <= length buf ->
  exists b', buf = w ++ b' /\ t = b' ++ rest.
Proof.
  induction w as [|x w IH]; intros t buf rest E L.
  - exists buf; split; auto.
  - destruct buf as [|y buf]; cbn in L; [lia|]. cbn in E; injection E as -> E.
    destruct (IH t buf rest E ltac:(lia)) as (b' & -> & ->). exists b'; auto.
Qed.
Lemma app_split_lt : forall {A} (w t buf rest : list A),
  w ++ t = buf ++ rest -> length buf < length w ->
  exists w', w = buf ++ w' /\ rest = w' ++ t /\ w' <> [].
Proof.
  intros A w t buf rest E L. symmetry in E.
  destruct (app_split_le _ _ _ _ E ltac:(lia)) as (w' & -> & ->).
  exists w'; repeat split; auto. intros ->; rewrite app_nil_r in L; lia.
Qed.
Lemma app_cases : forall {A} (w0 w1 buf w' : list A),
  w0 ++ w1 = buf ++ w' ->
  (exists w0', w0 = buf ++ w0' /\ w' = w0' ++ w1 /\ w0' <> []) \/
  (exists b1, buf = w0 ++ b1 /\ w1 = b1 ++ w').
Proof.
  intros A w0 w1 buf w' E. destruct (le_lt_dec (length w0) (length buf)) as [L|L].
  - right. exact (app_split_le _ _ _ _ E L).
  - left. exact (app_split_lt _ _ _ _ E L).
Qed.

Lemma bc_eqb_eq : forall a b, bc_eqb a b = true <-> a = b.
Proof.
  intros [x| |] [y| |]; cbn; split; intros; try discriminate; auto.
  - f_equal; lia.
  - injection H; lia.
Qed.
Lemma is_reached_finite : forall n, is_reached (Finite n) = (n =? 0)%N.
Proof. reflexivity. Qed.
Lemma is_reached_true : forall e, is_reached e = true <-> e = Finite 0.
Proof. intros; apply bc_eqb_eq. Qed.

Lemma u64_add_ok : forall a b, (a + b <= u64_max)%N -> u64_add a b = Some (a + b)%N.
Proof. intros; unfold u64_add; replace (a + b <=? u64_max)%N with true by lia; auto. Qed.
Lemma u64_sub_ok : forall a b, (b <= a)%N -> u64_sub a b = Some (a - b)%N.
Proof. intros; unfold u64_sub; replace (b <=? a)%N with true by lia; auto. Qed.
Lemma usize_sub_ok : forall a b, b <= a -> usize_sub a b = Some (a - b).
Proof. intros; unfold usize_sub; replace (b <=? a) with true by lia; auto. Qed.

Lemma isize_u64 : (2 * isize_max < u64_max)%N.
Proof. reflexivity. Qed.

Lemma nil_or_not : forall {A} (l : list A), l = [] \/ l <> [].
Proof. intros A [|]; [left|right]; congruence. Qed.
Lemma length_nonnil : forall {A} (l : list A), l <> [] -> 0 < length l.
Proof. intros A [|]; cbn; [congruence|lia]. Qed.

Lemma skipn_skipn : forall {A} a b (l : list A), skipn a (skipn b l) = skipn (a + b) l.
Proof.
  intros A a b; revert a; induction b as [|b IH]; intros a l.
  - now rewrite Nat.add_0_r.
  - destruct l; [now rewrite !skipn_nil|]. rewrite Nat.add_succ_r. cbn. apply IH.
Qed.
Lemma app_inj_len : forall {A} (a b c d : list A),
  length a = length c -> a ++ b = c ++ d -> a = c /\ b = d.
Proof.
  induction a as [|x a IH]; intros b [|y c] d L EQ; cbn in *; try discriminate; auto.
  injection EQ as -> EQ. destruct (IH b c d ltac:(lia) EQ) as [-> ->]. auto.
Qed.
