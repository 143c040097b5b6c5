(** * C86, continued: limits inside limits *)
From Verif Require Export Props_Laws.
From Verif Require Import Lib.
From Coq Require Import Lia ZifyBool ZifyNat ZifyN.
Set Implicit Arguments.
Local Arguments Nat.eqb : simpl never.
Local Arguments N.eqb : simpl never.
Local Arguments N.leb : simpl never.
Local Arguments N.min : simpl never.

(** ** [max_bytes] in [max_bytes]: the smaller one. *)
Lemma max_check_under : forall S S' (s : S) (s' : S') c n m buf e, (m <= n)%N -> (c <= m)%N ->
  max_check (mkMax s c m) buf e = Ok tt -> max_check (mkMax s' c n) buf e = Ok tt.
Proof.
  intros S S' s s' c n m buf e L C H. unfold max_check in *. cbn in *. unfold u64_sub in *.
  replace (c <=? m)%N with true in H by lia. replace (c <=? n)%N with true by lia.
  destruct (remaining_bytes e) as [x| |]; auto; [|destruct (len buf <=? m - c)%N eqn:X; [|discriminate]; now replace (len buf <=? n - c)%N with true by lia].
  destruct (u64_add (len buf) x) as [y|]; [|discriminate]. destruct (y <=? m - c)%N eqn:X; [|discriminate].
  now replace (y <=? n - c)%N with true by lia.
Qed.
Lemma max_check_state : forall S S' (s : S) (s' : S') c n buf e,
  max_check (mkMax s c n) buf e = max_check (mkMax s' c n) buf e.
Proof. reflexivity. Qed.
Lemma max_check_room : forall S (s : S) c n buf e, (c <= n)%N ->
  max_check (mkMax s c n) buf e = Ok tt -> (c + len buf <= n)%N.
Proof.
  intros S s c n buf e C H. unfold max_check in H. cbn in H. unfold u64_sub in H. replace (c <=? n)%N with true in H by lia.
  destruct (remaining_bytes e) as [x| |]; [|discriminate|destruct (len buf <=? n - c)%N eqn:X; [lia|discriminate]].
  unfold u64_add in H. destruct (len buf + x <=? u64_max)%N; [|discriminate]. destruct (len buf + x <=? n - c)%N eqn:X; [lia|discriminate].
Qed.
(** A check that the looser limit passes or fails in the same way as the tighter one, if the tighter one does not pass. *)
Lemma max_check_over : forall S S' (s : S) (s' : S') c n m buf e, (n <= m)%N -> (c <= n)%N ->
  max_check (mkMax s c m) buf e <> Ok tt -> max_check (mkMax s' c n) buf e = max_check (mkMax s c m) buf e.
Proof.
  intros S S' s s' c n m buf e L C H. unfold max_check in *. cbn in *. unfold u64_sub in *.
  replace (c <=? m)%N with true in * by lia. replace (c <=? n)%N with true by lia.
  destruct (remaining_bytes e) as [x| |]; auto.
  - destruct (u64_add (len buf) x) as [y|]; auto. destruct (y <=? m - c)%N eqn:X; [congruence|]. now replace (y <=? n - c)%N with false by lia.
  - destruct (len buf <=? m - c)%N eqn:X; [congruence|]. now replace (len buf <=? n - c)%N with false by lia.
Qed.
Definition max_max_rel {S} (n m : N) (a : MaxBytes (MaxBytes S)) (b : MaxBytes S) : Prop :=
  mx_inner (mx_inner a) = mx_inner b /\ mx_consumed (mx_inner a) = mx_consumed b /\ mx_consumed a = mx_consumed b /\
  mx_max (mx_inner a) = n /\ mx_max a = m /\ mx_max b = N.min n m.
Theorem C86_max_bytes_twice : forall S I (D : Decoder S I) s n m, honest D ->
  dalike (max_decoder (max_decoder D)) (max_decoder D) (max_new (max_new s n) m) (max_new s (N.min n m)).
Proof.
  intros S I D s n m HD.
  apply (alike_of (fun a b => max_max_rel n m a b /\ (mx_consumed b <= N.min n m)%N)); [..|repeat split; cbn; lia];
    intros [[s1 c1 n1] c2 m1] [s' c k] ((E1 & E2 & E3 & E4 & E5 & E6) & L); cbn in *; subst.
  - intros. unfold max_decode.
    assert (C : max_check (mkMax s' c (N.min n m)) buf e =
                match max_check (mkMax (mkMax s' c n) c m) buf e with Ok _ => max_check (mkMax s' c n) buf e | x => x end).
    { destruct (N.le_ge_cases n m).
      - rewrite N.min_l by lia. destruct (max_check (mkMax (mkMax s' c n) c m) buf e) as [[]|k| |] eqn:X; auto;
          rewrite <- X; apply max_check_over; try lia; rewrite X; discriminate.
      - rewrite N.min_r by lia. rewrite (max_check_state s' (mkMax s' c n)).
        destruct (max_check (mkMax (mkMax s' c n) c m) buf e) as [[]|k| |] eqn:X; auto.
        symmetry. eapply max_check_under; [| |exact X]; lia. }
    rewrite C. destruct (max_check (mkMax (mkMax s' c n) c m) buf e) as [[]|k| |] eqn:X1;
      try (do 3 eexists; split; [reflexivity|]; split; [reflexivity|]; repeat split; auto).
    cbn [dec_decode max_decoder mx_inner mx_consumed mx_max]. unfold max_decode. cbn [mx_inner mx_consumed mx_max].
    destruct (max_check (mkMax s' c n) buf e) as [[]|k| |] eqn:X2;
      try (do 3 eexists; split; [reflexivity|]; split; [reflexivity|]; repeat split; auto).
    destruct (dec_decode D fuel s' buf e) as [s2 [z|k| |]] eqn:DD;
      try (do 3 eexists; split; [reflexivity|]; split; [reflexivity|]; repeat split; auto).
    apply HD in DD. pose proof (@max_check_room _ _ _ _ _ _ L C) as X3.
    unfold u64_add. destruct (c + N.of_nat z <=? u64_max)%N eqn:U; rewrite ?U.
    + do 3 eexists. split; [reflexivity|]. split; [reflexivity|]. repeat split; auto. cbn. unfold len in X3. lia.
    + do 3 eexists. split; [reflexivity|]. split; [reflexivity|]. repeat split; auto.
  - destruct (dec_finish D s') as [s2 r]. do 3 eexists. split; [reflexivity|]. split; [reflexivity|]. repeat split; auto. cbn. lia.
  - reflexivity.
  - reflexivity.
Qed.
Print Assumptions C86_max_bytes_twice.

(** ** [length(n)] in [length(n)] is one [length(n)]. *)
Lemma firstn_le : forall (l : list byte) n, (n <= len l)%N -> len (firstn (N.to_nat n) l) = n.
Proof. intros. unfold len in *. rewrite firstn_length. lia. Qed.
Theorem C86_length_twice : forall S I (D : Decoder S I) s n, (n <= u64_max)%N ->
  dalike (length_decoder (length_decoder D)) (length_decoder D) (length_new (length_new s n) n) (length_new s n).
Proof.
  intros S I D s n LN.
  apply (alike_of (fun (a : Length (Length S)) b => ln_inner a = b /\ ln_expected a = ln_expected b /\ ln_remaining a = ln_remaining b /\
           (ln_expected b <= u64_max)%N /\ (ln_remaining b <= u64_max)%N)); [..|repeat split; auto];
    intros [[s1 x1 r1] x2 r2] [s' x r] (E1 & E2 & E3 & L1 & L2); cbn in *; injection E1 as -> -> ->; subst.
  - intros. unfold length_decode. cbn [ln_inner ln_expected ln_remaining].
    set (lim := N.min (len buf) r).
    assert (LL : (lim <= len buf /\ lim <= r)%N) by (subst lim; lia).
    assert (X : dec_decode (length_decoder D) fuel (mkLength s' x r) (firstn (N.to_nat lim) buf) (eos_with_remaining (Finite (r - lim)))
      = let '(s2, q) := dec_decode D fuel s' (firstn (N.to_nat lim) buf) (eos_with_remaining (Finite (r - lim))) in
        match q with
        | Ok size => match u64_sub r (N.of_nat size) with
                     | Some rem => (mkLength s2 x rem, Ok size) | None => (mkLength s2 x r, Panic) end
        | q' => (mkLength s2 x r, q') end).
    { cbn [dec_decode length_decoder]. unfold length_decode. cbn [ln_inner ln_expected ln_remaining].
      rewrite firstn_le by lia. replace (N.min lim r) with lim by lia.
      cbn [remaining_bytes eos_with_remaining bc_to_u64]. unfold u64_add.
      replace (r - lim + lim <=? u64_max)%N with true by lia. replace (r - lim <=? r - lim + lim)%N with true by lia.
      rewrite firstn_firstn. now rewrite Nat.min_id. }
    rewrite X.
    assert (G : exists a a' z,
      (let '(s2, r2) := (let '(s2, q) := dec_decode D fuel s' (firstn (N.to_nat lim) buf) (eos_with_remaining (Finite (r - lim))) in
        match q with
        | Ok size => match u64_sub r (N.of_nat size) with
                     | Some rem => (mkLength s2 x rem, Ok size) | None => (mkLength s2 x r, Panic) end
        | q' => (mkLength s2 x r, q') end) in
       match r2 with
       | Ok size => match u64_sub r (N.of_nat size) with
                     | Some rem => (mkLength s2 x rem, Ok size) | None => (mkLength s2 x r, Panic) end
       | q' => (mkLength s2 x r, q') end) = (a, z) /\
      (let '(s2, q) := dec_decode D fuel s' (firstn (N.to_nat lim) buf) (eos_with_remaining (Finite (r - lim))) in
        match q with
        | Ok size => match u64_sub r (N.of_nat size) with
                     | Some rem => (mkLength s2 x rem, Ok size) | None => (mkLength s2 x r, Panic) end
        | q' => (mkLength s2 x r, q') end) = (a', z) /\
      (ln_inner a = a' /\ ln_expected a = ln_expected a' /\ ln_remaining a = ln_remaining a' /\
           (ln_expected a' <= u64_max)%N /\ (ln_remaining a' <= u64_max)%N)).
    { destruct (dec_decode D fuel s' (firstn (N.to_nat lim) buf) (eos_with_remaining (Finite (r - lim)))) as [s2 [z|k| |]];
        try (do 3 eexists; split; [reflexivity|]; split; [reflexivity|]; repeat split; auto).
      unfold u64_sub. destruct (N.of_nat z <=? r)%N eqn:U; rewrite ?U;
        (do 3 eexists; split; [reflexivity|]; split; [reflexivity|]; repeat split; auto).
      cbn. lia. }
    destruct (bc_to_u64 (remaining_bytes e)) as [rem|]; [|exact G].
    destruct (u64_add rem (len buf)) as [rem'|]; [destruct (r - lim <=? rem')%N; [exact G|]|];
      do 3 eexists; (split; [reflexivity|]; split; [reflexivity|]; repeat split; auto).
  - destruct (r =? 0)%N; [|do 3 eexists; split; [reflexivity|]; split; [reflexivity|]; repeat split; auto].
    destruct (dec_finish D s') as [s2 q]. do 3 eexists; split; [reflexivity|]; split; [reflexivity|]; repeat split; auto.
  - reflexivity.
  - reflexivity.
Qed.
Print Assumptions C86_length_twice.

(** ** A limit inside [length(n)] that is not below [n] has no effect. *)
Theorem C86_max_bytes_in_length : forall S I (D : Decoder S I) s n m, honest D -> (n <= m)%N -> (m <= u64_max)%N ->
  dalike (length_decoder (max_decoder D)) (length_decoder D) (length_new (max_new s m) n) (length_new s n).
Proof.
  intros S I D s n m HD NM LM.
  apply (alike_of (fun (a : Length (MaxBytes S)) b =>
           mx_inner (ln_inner a) = ln_inner b /\ mx_max (ln_inner a) = m /\ ln_expected a = n /\ ln_expected b = n /\
           ln_remaining a = ln_remaining b /\ (mx_consumed (ln_inner a) + ln_remaining b = n)%N)); [..|repeat split; auto];
    intros [[s1 c1 m1] x2 r2] [s' x r] (E1 & E2 & E3 & E4 & E5 & E6); cbn in *; subst.
  - intros. unfold length_decode. cbn [ln_inner ln_expected ln_remaining].
    set (lim := N.min (len buf) r).
    assert (LL : (lim <= len buf /\ lim <= r)%N) by (subst lim; lia).
    assert (G : exists a a' z,
      (let '(s2, q) := dec_decode (max_decoder D) fuel (mkMax s' c1 m) (firstn (N.to_nat lim) buf) (eos_with_remaining (Finite (r - lim))) in
        match q with
        | Ok size => match u64_sub r (N.of_nat size) with
                     | Some rem => (mkLength s2 (c1 + r)%N rem, Ok size) | None => (mkLength s2 (c1 + r)%N r, Panic) end
        | q' => (mkLength s2 (c1 + r)%N r, q') end) = (a, z) /\
      (let '(s2, q) := dec_decode D fuel s' (firstn (N.to_nat lim) buf) (eos_with_remaining (Finite (r - lim))) in
        match q with
        | Ok size => match u64_sub r (N.of_nat size) with
                     | Some rem => (mkLength s2 (c1 + r)%N rem, Ok size) | None => (mkLength s2 (c1 + r)%N r, Panic) end
        | q' => (mkLength s2 (c1 + r)%N r, q') end) = (a', z) /\
      (mx_inner (ln_inner a) = ln_inner a' /\ mx_max (ln_inner a) = m /\ ln_expected a = (c1 + r)%N /\ ln_expected a' = (c1 + r)%N /\
           ln_remaining a = ln_remaining a' /\ (mx_consumed (ln_inner a) + ln_remaining a' = c1 + r)%N)).
    { cbn [dec_decode max_decoder]. unfold max_decode, max_check. cbn [mx_inner mx_consumed mx_max remaining_bytes eos_with_remaining].
      rewrite firstn_le by lia. unfold u64_sub at 1. replace (c1 <=? m)%N with true by lia.
      unfold u64_add at 1. replace (lim + (r - lim) <=? u64_max)%N with true by lia. replace (lim + (r - lim) <=? m - c1)%N with true by lia.
      destruct (dec_decode D fuel s' (firstn (N.to_nat lim) buf) (eos_with_remaining (Finite (r - lim)))) as [s2 [z|k| |]] eqn:DD;
        try (do 3 eexists; split; [reflexivity|]; split; [reflexivity|]; repeat split; auto).
      apply HD in DD. pose proof (@firstn_le buf lim ltac:(lia)) as FL. unfold len in FL.
      unfold u64_add, u64_sub. replace (c1 + N.of_nat z <=? u64_max)%N with true by lia. replace (N.of_nat z <=? r)%N with true by lia.
      do 3 eexists; split; [reflexivity|]; split; [reflexivity|]; repeat split; auto. cbn. lia. }
    destruct (bc_to_u64 (remaining_bytes e)) as [rem|]; [|exact G].
    destruct (u64_add rem (len buf)) as [rem'|]; [destruct (r - lim <=? rem')%N; [exact G|]|];
      do 3 eexists; (split; [reflexivity|]; split; [reflexivity|]; repeat split; auto).
  - destruct (r =? 0)%N eqn:R0; [|do 3 eexists; split; [reflexivity|]; split; [reflexivity|]; repeat split; auto].
    destruct (dec_finish D s') as [s2 q]. do 3 eexists; split; [reflexivity|]; split; [reflexivity|]; repeat split; auto.
  - reflexivity.
  - reflexivity.
Qed.
Print Assumptions C86_max_bytes_in_length.

(** ** [slice] in [slice]: the smaller budget. *)
Theorem C86_slice_twice : forall S I (D : Decoder S I) s a b, honest D ->
  dalike (slice_decoder (slice_decoder D)) (slice_decoder D) (mkSlice (mkSlice s a) b) (mkSlice s (N.min a b)).
Proof.
  intros S I D s a b HD.
  apply (alike_of (fun x y => sl_inner (sl_inner x) = sl_inner y /\
           N.min (sl_consumable (sl_inner x)) (sl_consumable x) = sl_consumable y)); [..|repeat split; auto];
    clear a b; intros [[s1 a] b] [s' c] (E1 & E2); cbn in *; subst.
  - intros. unfold slice_decode. cbn [sl_inner sl_consumable].
    set (l1 := N.min (len buf) b). set (l2 := N.min (len buf) (N.min a b)).
    assert (L1 : (l1 <= len buf)%N) by (subst l1; lia). assert (L2 : (l2 <= l1)%N) by (subst l1 l2; lia).
    assert (L3 : N.min l1 a = l2) by (subst l1 l2; lia). assert (L4 : (l2 <= a /\ l2 <= b)%N) by (subst l2; lia).
    assert (EB : match eos_back e (len buf - l1) with Some e' => eos_back e' (l1 - l2) | None => None end = eos_back e (len buf - l2)).
    { destruct e as [x| |]; cbn; auto. unfold u64_add, option_map.
      destruct (x + (len buf - l1) <=? u64_max)%N eqn:U1.
      - cbn. unfold u64_add. replace (x + (len buf - l1) + (l1 - l2))%N with (x + (len buf - l2))%N by lia. reflexivity.
      - replace (x + (len buf - l2) <=? u64_max)%N with false by lia. reflexivity. }
    rewrite <- EB. clear EB.
    destruct (eos_back e (len buf - l1)) as [e1|]; [|do 3 eexists; split; [reflexivity|]; split; [reflexivity|]; repeat split; auto].
    cbn [dec_decode slice_decoder]. unfold slice_decode. cbn [sl_inner sl_consumable]. rewrite firstn_le by lia. rewrite L3.
    destruct (eos_back e1 (l1 - l2)) as [e2|]; [|do 3 eexists; split; [reflexivity|]; split; [reflexivity|]; repeat split; auto].
    rewrite firstn_firstn. replace (Nat.min (N.to_nat l2) (N.to_nat l1)) with (N.to_nat l2) by lia.
    destruct (dec_decode D fuel s' (firstn (N.to_nat l2) buf) e2) as [s2 [z|k| |]] eqn:DD;
      try (do 3 eexists; split; [reflexivity|]; split; [reflexivity|]; repeat split; auto).
    apply HD in DD. pose proof (@firstn_le buf l2 ltac:(lia)) as FL. unfold len in FL.
    unfold u64_sub. replace (N.of_nat z <=? a)%N with true by lia. replace (N.of_nat z <=? b)%N with true by lia.
    replace (N.of_nat z <=? N.min a b)%N with true by lia.
    do 3 eexists; split; [reflexivity|]; split; [reflexivity|]; repeat split; auto. cbn. lia.
  - destruct (dec_finish D s') as [s2 q]. do 3 eexists; split; [reflexivity|]; split; [reflexivity|]; repeat split; auto.
  - reflexivity.
  - reflexivity.
Qed.
Print Assumptions C86_slice_twice.

(** ** [maybe_eos] and [peekable] twice are once; [omit(false)] is [map(Some)]. *)
Theorem C86_maybe_eos_twice : forall S I (D : Decoder S I) s,
  dalike (maybe_decoder (maybe_decoder D)) (maybe_decoder D) (maybe_new (maybe_new s)) (maybe_new s).
Proof.
  intros S I D s.
  apply (alike_of (fun (a : MaybeEos (MaybeEos S)) b => my_inner a = b /\ my_started a = my_started b)); [..|repeat split; auto];
    intros [[s1 b1] b2] [s' b] (E1 & E2); cbn in *; injection E1 as -> ->; subst b2.
  - intros. unfold maybe_decode. cbn [dec_decode maybe_decoder]. unfold maybe_decode. cbn [my_inner my_started].
    set (e1 := if negb b && (length buf =? 0) && is_reached e then eos_new false else e).
    replace (if negb b && (length buf =? 0) && is_reached e1 then eos_new false else e1) with e1
      by (subst e1; destruct (negb b && (length buf =? 0)) eqn:X; cbn [andb]; auto; destruct (is_reached e) eqn:Y; auto; now rewrite Y).
    destruct (dec_decode D fuel s' buf e1) as [s2 [z|k| |]];
      do 3 eexists; (split; [reflexivity|]; split; [reflexivity|]; repeat split; auto).
  - destruct (dec_finish D s') as [s2 q]. do 3 eexists; split; [reflexivity|]; split; [reflexivity|]; repeat split; auto.
  - reflexivity.
  - reflexivity.
Qed.
Print Assumptions C86_maybe_eos_twice.
Theorem C86_peekable_twice : forall S I (D : Decoder S I) s,
  dalike (peek_decoder (peek_decoder D)) (peek_decoder D) (peek_new (peek_new s)) (peek_new s).
Proof.
  intros S I D s.
  apply (alike_of (fun (a : Peekable (Peekable S I) I) b => pk_inner (pk_inner a) = pk_inner b /\ pk_item (pk_inner a) = None /\
           pk_item a = pk_item b)); [..|repeat split; auto];
    intros [[s1 i1] i2] [s' i] (E1 & E2 & E3); cbn in *; subst.
  - intros. unfold peek_decode. cbn [dec_decode peek_decoder]. unfold peek_decode. cbn [pk_inner pk_item].
    destruct i as [i|]; [do 3 eexists; split; [reflexivity|]; split; [reflexivity|]; repeat split; auto|].
    destruct (dec_decode D fuel s' buf e) as [s2 [z|k| |]]; cbn;
      try (do 3 eexists; split; [reflexivity|]; split; [reflexivity|]; repeat split; auto).
    destruct (dec_idle D s2); cbn; [|do 3 eexists; split; [reflexivity|]; split; [reflexivity|]; repeat split; auto].
    destruct (dec_finish D s2) as [s3 [j|k| |]]; cbn;
      do 3 eexists; (split; [reflexivity|]; split; [reflexivity|]; repeat split; auto).
  - destruct i; do 3 eexists; (split; [reflexivity|]; split; [reflexivity|]; repeat split; auto).
  - destruct i; reflexivity.
  - destruct i; reflexivity.
Qed.
Print Assumptions C86_peekable_twice.
Theorem C86_omit_false : forall S I (D : Decoder S I) s,
  dalike (omit_decoder D) (map_decoder D Some) (mkOmit s false) s.
Proof.
  intros S I D s. apply (alike_of (fun a b => a = mkOmit b false)); auto; intros ? b ->; cbn; auto.
  - intros. destruct (dec_decode D fuel b buf e). eauto 6.
  - destruct (dec_finish D b). eauto 6.
Qed.
Print Assumptions C86_omit_false.
