(** * Theorems about [ByteCount] and [Eos]: C48, C49. *)
From Coq Require Import Lia ZifyBool ZifyNat ZifyN.
From Verif Require Import Base.
Set Implicit Arguments.

(** ** C48: ByteCount *)

(** The known part of a count. *)
Definition known (a : ByteCount) : N := match a with Finite n => n | _ => 0 end.
(** [a <= b], [a < b] as the operators of [PartialOrd] define them. *)
Definition bc_le (a b : ByteCount) : Prop :=
  bc_partial_cmp a b = Some Lt \/ bc_partial_cmp a b = Some Eq.
Definition bc_lt (a b : ByteCount) : Prop := bc_partial_cmp a b = Some Lt.

Ltac table :=
  unfold bc_le, bc_lt, add_for_encoding, add_for_decoding, opt_finite, u64_add, known, bc_partial_cmp in *;
  repeat match goal with
  | H : ByteCount |- _ => destruct H
  | |- context [if ?b then _ else _] => destruct b eqn:?; cbn [rbind]
  | |- _ => progress cbn [rbind]
  end.

(** The documented rules. *)
Theorem C48_encoding_table : forall a b,
  add_for_encoding Infinite b = Ok Infinite /\ add_for_encoding a Infinite = Ok Infinite /\
  (a <> Infinite -> add_for_encoding a Unknown = Ok Unknown) /\
  (b <> Infinite -> add_for_encoding Unknown b = Ok Unknown) /\
  (forall x y, (x + y <= u64_max)%N -> add_for_encoding (Finite x) (Finite y) = Ok (Finite (x + y))) /\
  (forall x y, (u64_max < x + y)%N -> add_for_encoding (Finite x) (Finite y) = Panic).
Proof.
  intros a b. repeat split; intros; table; auto; try congruence; exfalso; lia.
Qed.
Print Assumptions C48_encoding_table.
Theorem C48_decoding_table : forall a b,
  add_for_decoding Infinite b = Ok Infinite /\ add_for_decoding a Infinite = Ok Infinite /\
  add_for_decoding Unknown Unknown = Ok Unknown /\
  add_for_decoding (Finite 0) Unknown = Ok Unknown /\
  add_for_decoding Unknown (Finite 0) = Ok Unknown /\
  (forall x, x <> 0%N -> add_for_decoding (Finite x) Unknown = Ok (Finite x)) /\
  (forall x, x <> 0%N -> add_for_decoding Unknown (Finite x) = Ok (Finite x)) /\
  (forall x y, (x + y <= u64_max)%N -> add_for_decoding (Finite x) (Finite y) = Ok (Finite (x + y))) /\
  (forall x y, (u64_max < x + y)%N -> add_for_decoding (Finite x) (Finite y) = Panic).
Proof.
  intros a b. repeat split; intros; table; auto; try congruence; try (exfalso; lia).
Qed.
Print Assumptions C48_decoding_table.

Theorem C48_encoding_monoid : forall a b c,
  add_for_encoding a b = add_for_encoding b a /\
  ((known a <= u64_max)%N -> add_for_encoding a (Finite 0) = Ok a) /\
  ((known a + known b + known c <= u64_max)%N ->
   exists r, rbind (add_for_encoding a b) (fun x => add_for_encoding x c) = Ok r /\
             rbind (add_for_encoding b c) (fun x => add_for_encoding a x) = Ok r).
Proof.
  intros a b c. split; [|split].
  - table; auto; try (exfalso; lia); now rewrite N.add_comm.
  - intros H. table; auto; try (exfalso; lia); now rewrite N.add_0_r.
  - intros H. table; try (exfalso; lia); eauto; (eexists; split; [reflexivity|]; do 2 f_equal; lia).
Qed.
Print Assumptions C48_encoding_monoid.
Theorem C48_decoding_monoid : forall a b c,
  add_for_decoding a b = add_for_decoding b a /\
  ((known a <= u64_max)%N -> add_for_decoding a (Finite 0) = Ok a) /\
  ((known a + known b + known c <= u64_max)%N ->
   exists r, rbind (add_for_decoding a b) (fun x => add_for_decoding x c) = Ok r /\
             rbind (add_for_decoding b c) (fun x => add_for_decoding a x) = Ok r).
Proof.
  intros a b c. split; [|split].
  - table; auto; try (exfalso; lia); now rewrite N.add_comm.
  - intros H. table; auto; try (exfalso; lia); now rewrite N.add_0_r.
  - intros H. table; try (exfalso; lia); eauto;
      (eexists; split; [reflexivity|]; do 2 f_equal; lia).
Qed.
Print Assumptions C48_decoding_monoid.
Example C48_monoid_example :
  rbind (add_for_decoding Unknown (Finite 3)) (fun x => add_for_decoding x (Finite 4)) = Ok (Finite 7) /\
  (known Unknown + known (Finite 3) + known (Finite 4) <= u64_max)%N.
Proof. split; [reflexivity|cbv; discriminate]. Qed.

(** A sum for decoding is not below a known part, and 0 only if nothing is needed. *)
Theorem C48_decoding_lower_bound : forall a b r,
  add_for_decoding a b = Ok r ->
  (a <> Unknown -> known a <> 0%N \/ a = Infinite -> bc_le a r) /\
  (b <> Unknown -> known b <> 0%N \/ b = Infinite -> bc_le b r) /\
  (r = Finite 0 -> a = Finite 0 /\ b = Finite 0).
Proof.
  intros a b r H. destruct a, b; cbn in H; unfold opt_finite, u64_add in H;
    repeat match type of H with context [if ?x then _ else _] => destruct x eqn:? end;
    try discriminate; injection H as <-; unfold bc_le; cbn; (split; [|split]); intros;
    rewrite ?N.compare_refl; auto; try congruence;
    try match goal with |- Some (?x ?= ?y)%N = _ \/ _ => destruct (N.compare_spec x y); auto; exfalso; lia end;
    try (injection H as ->); try (split; f_equal; lia); try (cbn in *; lia).
  - injection H as H. split; f_equal; lia.
  - destruct H0; [lia|discriminate].
  - destruct H0; [lia|discriminate].
Qed.
Print Assumptions C48_decoding_lower_bound.
Example C48_lower_bound_example :
  add_for_decoding (Finite 3) Unknown = Ok (Finite 3) /\ bc_le (Finite 3) (Finite 3).
Proof. split; [reflexivity|right; reflexivity]. Qed.

(** The comparison is a strict order, dual and transitive; [Unknown] compares with nothing. *)
Theorem C48_order : forall a b c,
  ~ bc_lt a a /\
  (bc_lt a b -> bc_lt b c -> bc_lt a c) /\
  (bc_le a b -> bc_le b a -> a = b) /\
  (bc_partial_cmp a b = Some Eq -> a = b) /\
  (a <> Unknown -> bc_partial_cmp a a = Some Eq) /\
  bc_partial_cmp b a = option_map CompOpp (bc_partial_cmp a b) /\
  bc_partial_cmp Unknown a = None /\ bc_partial_cmp a Unknown = None /\
  (a <> Unknown -> a <> Infinite -> bc_lt a Infinite) /\
  (forall x y, bc_lt (Finite x) (Finite y) <-> (x < y)%N).
Proof.
  intros a b c. unfold bc_lt, bc_le.
  split; [destruct a; cbn; rewrite ?N.compare_refl; discriminate|].
  split.
  { destruct a, b, c; cbn; try discriminate; auto. intros H H0. injection H as H. injection H0 as H0.
    f_equal. rewrite N.compare_lt_iff in *. lia. }
  split.
  { destruct a, b; cbn; intros [H|H] [H0|H0]; try discriminate; auto; injection H as H; injection H0 as H0;
      rewrite ?N.compare_lt_iff, ?N.compare_eq_iff in *; f_equal; lia. }
  split.
  { destruct a, b; cbn; intros H; try discriminate; auto. injection H as H.
    rewrite N.compare_eq_iff in H. congruence. }
  split; [destruct a; cbn; rewrite ?N.compare_refl; congruence|].
  split; [destruct a, b; cbn; auto; f_equal; apply N.compare_antisym|].
  split; [reflexivity|]. split; [destruct a; reflexivity|].
  split; [destruct a; cbn; congruence|].
  intros x y. cbn. rewrite <- N.compare_lt_iff. split; [intros H; now injection H|intros ->; auto].
Qed.
Print Assumptions C48_order.
(** [Unknown == Unknown], but [Unknown.partial_cmp(Unknown)] is [None]: the comparison is not the
    one [PartialOrd] asks for ([a == b] iff [partial_cmp] is [Equal]). *)
Theorem C48_partial_cmp_consistent_refuted : exists a b,
  bc_eqb a b = true /\ bc_partial_cmp a b <> Some Eq.
Proof. exists Unknown, Unknown. split; [reflexivity|discriminate]. Qed.
Print Assumptions C48_partial_cmp_consistent_refuted.
(** The remaining accessors. *)
Theorem C48_accessors : forall a,
  (bc_is_finite a = true <-> exists n, a = Finite n) /\
  (bc_is_infinite a = true <-> a = Infinite) /\ (bc_is_unknown a = true <-> a = Unknown) /\
  (forall n, bc_to_u64 a = Some n <-> a = Finite n) /\
  (forall b, bc_eqb a b = true <-> a = b) /\ bc_default = Unknown.
Proof.
  intros a. repeat split; intros; destruct a; cbn in *; try congruence; eauto;
    try (destruct H; congruence); try (destruct b; cbn in *; try congruence; try (f_equal; lia)).
  injection H as ->. apply N.eqb_refl.
Qed.
Print Assumptions C48_accessors.

(** ** C49: Eos *)
Theorem C49_eos : forall b e,
  is_reached (eos_new b) = b /\
  (is_reached e = true <-> remaining_bytes e = Finite 0) /\
  (forall n, remaining_bytes (eos_with_remaining n) = n).
Proof.
  intros b e. split; [destruct b; reflexivity|]. split; auto. unfold is_reached, remaining_bytes.
  destruct e as [n| |]; cbn; split; try congruence.
  - intros H. f_equal. lia.
  - intros H. injection H as ->. reflexivity.
Qed.
Print Assumptions C49_eos.
(** [back n] adds [n] to a known distance, keeps an unknown or infinite one, and never
    announces the end unless [n = 0]; it panics only when the sum is above [u64::MAX]. *)
Theorem C49_back : forall e n,
  match e with
  | Finite m => (m + n <= u64_max)%N /\ eos_back e n = Some (Finite (m + n)) \/
                (u64_max < m + n)%N /\ eos_back e n = None
  | _ => eos_back e n = Some e
  end /\
  (forall e', eos_back e n = Some e' -> is_reached e' = true -> n = 0%N /\ is_reached e = true).
Proof.
  intros e n. split.
  - destruct e; cbn; auto. unfold u64_add. destruct (N.leb_spec (n0 + n) u64_max); cbn; auto.
  - intros e' H R. destruct e; cbn in H; try (injection H as <-; discriminate).
    unfold u64_add in H. destruct (_ <=? _)%N; [|discriminate]. injection H as <-.
    unfold is_reached in *. cbn in *. lia.
Qed.
Print Assumptions C49_back.
Theorem C49_back_additive : forall e m n e1,
  eos_back e m = Some e1 ->
  eos_back e1 n = eos_back e (m + n) /\ (forall e', eos_back e 0 = Some e' -> e' = e).
Proof.
  intros e m n e1 H. destruct e; cbn in *; unfold u64_add in *.
  - destruct (_ <=? u64_max)%N eqn:L in H; [|discriminate]. injection H as <-. cbn. unfold u64_add.
    rewrite N.add_assoc. split; auto. intros e'. destruct (n0 + 0 <=? u64_max)%N; cbn; [rewrite N.add_0_r|]; congruence.
  - injection H as <-. cbn. split; congruence.
  - injection H as <-. cbn. split; congruence.
Qed.
Print Assumptions C49_back_additive.
Example C49_example : eos_back (Finite 3) 4 = Some (Finite 7).
Proof. reflexivity. Qed.
