(** * Theorems about [is_idle] and [requiring_bytes]: C91. *)
From Coq Require Import Lia ZifyBool ZifyNat ZifyN.
From Verif Require Import Agree Lib.
From Verif Require Serde.
Set Implicit Arguments.

Definition answers {S I} (D : Decoder S I) (b : bool) (Conf : S -> S -> Prop) (Init : S -> Prop) : Prop :=
  exists L, tells D b Conf L /\ forall s, Init s -> L s /\ (b = true -> dec_idle D s = false).

Ltac inj H := injection H; clear H; intros; subst.
Ltac zero := split; intros ?X; try congruence; try discriminate.

Lemma add0 : forall r, rbind r (add_for_decoding (Finite 0)) = Ok (Finite 0) <-> r = Ok (Finite 0).
Proof.
  intros [q| | |]; cbn; try (split; discriminate). destruct q as [n| |]; cbn; try (split; discriminate).
  - unfold opt_finite, u64_add. destruct (0 + n <=? u64_max)%N eqn:L; split; intros [= X]; try discriminate;
      try (subst; reflexivity); try (f_equal; f_equal; lia).
Qed.
Lemma add_zero : forall r r', rbind r (fun q => rbind r' (add_for_decoding q)) = Ok (Finite 0) <->
  r = Ok (Finite 0) /\ r' = Ok (Finite 0).
Proof.
  intros [q| | |] [q'| | |]; cbn; try (split; [discriminate|intros [? ?]; discriminate]).
  destruct q as [n| |], q' as [n'| |]; cbn; try (split; [discriminate|intros [? ?]; discriminate]).
  - unfold opt_finite, u64_add. destruct (n + n' <=? u64_max)%N eqn:L.
    + split; [intros [= X]; split; repeat f_equal; lia|intros [[= ->] [= ->]]; reflexivity].
    + split; [discriminate|]. intros [[= ->] [= ->]]. discriminate.
  - destruct (n =? 0)%N eqn:Z; (split; [|intros [? ?]; discriminate]); try discriminate. intros [= ->]. discriminate.
  - destruct (n' =? 0)%N eqn:Z; (split; [|intros [? ?]; discriminate]); try discriminate. intros [= ->]. discriminate.
Qed.
Lemma fair_ok : forall A (a : A), fair (Ok a).
Proof. split; discriminate. Qed.
Lemma fair_err : forall A k, fair (Err k : res A).
Proof. split; discriminate. Qed.
#[local] Hint Resolve fair_ok fair_err : core.
Ltac unfair := match goal with H : fair Panic |- _ => destruct H; congruence
                             | H : fair OutOfFuel |- _ => destruct H; congruence
                             | H : fair (rcast Panic) |- _ => destruct H; cbn in *; congruence
                             | H : fair (rcast OutOfFuel) |- _ => destruct H; cbn in *; congruence end.

(** What [try_decode] does to a decoder that [tells]. *)
Lemma try_tells : forall S I (D : Decoder S I) b Conf L fuel s off buf e,
  tells D b Conf L -> L s ->
  match try_decode D fuel s off buf e with
  | TGo s' off' => L s' /\ dec_idle D s' = true
  | TRet s' r => fair r -> L s' /\ (b = true \/ (exists n, r = Ok n) -> dec_idle D s' = false)
  end.
Proof.
  intros S I D b Conf L fuel s off buf e T Ls. unfold try_decode. destruct (dec_idle D s) eqn:id; [auto|].
  destruct (slice_from off buf) as [w|]; [|intros; unfair].
  destruct (dec_decode D fuel s w e) as [s' r] eqn:X. pose proof (tl_decode T _ _ _ _ Ls X) as A.
  destruct r as [n|k| |]; try (intros; unfair).
  - destruct (A (fair_ok _)) as [A1 A2]. destruct (dec_idle D s') eqn:id'; auto.
  - intros F. destruct (A F) as [A1 A2]. split; auto. intros [B|[n B]]; [eauto|discriminate].
Qed.

(** ** Primitives *)
Lemma null_answers : answers null_decoder false (fun _ _ => False) (fun _ => True).
Proof. exists (fun _ => True). split; [constructor|]; cbn; try tauto; try discriminate; intros; split; auto; discriminate. Qed.
Lemma copy_tells : forall n, tells (copy_decoder vec_box) (0 <? n) (fun _ _ => False)
  (fun st => length (cd_bytes st) = n /\ cd_off st <= n).
Proof.
  intros n. constructor; [| | |contradiction].
  - intros [b o] [<- H]. cbn [cd_bytes cd_off dec_idle dec_req copy_decoder bx_ref vec_box] in *. unfold usize_sub.
    replace (o <=? length b) with true by lia. split; intros X; [repeat f_equal; lia|injection X; lia].
  - intros [b o] fuel buf e s' r [<- H] X F. cbn [cd_bytes cd_off dec_idle dec_decode copy_decoder bx_ref vec_box] in *.
    unfold copy_decode in X. cbn [cd_bytes cd_off bx_ref bx_put vec_box] in X. unfold usize_sub in X.
    replace (o <=? length b) with true in X by lia.
    assert (LW : length (overwrite b o (firstn (Nat.min (length buf) (length b - o)) buf)) = length b).
    { unfold overwrite. rewrite !app_length, skipn_length, !firstn_length. lia. }
    destruct (negb _ && _) eqn:C; inj X; cbn [cd_bytes cd_off]; (split; [lia|]); intros _ _ [k K]; try discriminate.
    rewrite LW in *. destruct (_ =? _); [discriminate|reflexivity].
  - intros [b o] s' r [<- H] X F. cbn [dec_finish copy_decoder dec_idle] in *. unfold copy_finish in X.
    cbn [cd_bytes cd_off bx_ref vec_box] in *. destruct (o =? length b) eqn:Z; inj X; cbn [cd_bytes cd_off]; (split; [lia|]);
      intros; lia.
Qed.
Lemma bytes_answers : answers (bytes_decoder vec_box) false
    (fun st st' => exists b, st' = bytes_dec_set st b) (fun st => st = bytes_dec_default \/ exists b, st = bytes_dec_new b).
Proof.
  exists (fun st => match bd_bytes st with Some b => bd_off st <= length b | None => True end).
  split; [constructor|]; try (intros; split; [|discriminate]).
  - intros [[b|] o] H; cbn [bd_bytes bd_off dec_idle dec_req bytes_decoder bx_ref vec_box] in *; unfold bytes_dec_exact;
      cbn [bd_bytes bd_off bx_ref vec_box]; [|now split].
    unfold usize_sub. replace (o <=? length b) with true by lia. split; intros X; [repeat f_equal; lia|injection X; lia].
  - destruct s as [[b|] o]; cbn [dec_decode bytes_decoder] in *; unfold bytes_decode in *; cbn [bd_bytes bd_off bx_ref bx_put vec_box] in *;
      [|inj H0; exact Logic.I].
    unfold usize_sub in H0. replace (o <=? length b) with true in H0 by lia.
    assert (LW : length (overwrite b o (firstn (Nat.min (length buf) (length b - o)) buf)) = length b).
    { unfold overwrite. rewrite !app_length, skipn_length, !firstn_length. lia. }
    destruct (negb _ && _) eqn:C; inj H0; cbn [bd_bytes bd_off]; rewrite LW; lia.
  - destruct s as [[b|] o]; cbn [dec_finish bytes_decoder] in *; unfold bytes_finish in *; cbn [bd_bytes bd_off bx_ref vec_box] in *;
      destruct (bytes_dec_exact _ _ =? 0); inj H0; cbn; auto.
  - destruct H0 as [b ->]. cbn. lia.
  - destruct H as [->|[b ->]]; cbn; auto. lia.
Qed.
Lemma rem_answers : answers rem_decoder true (fun _ _ => False) (fun st => st = rem_dec_new).
Proof.
  exists (fun _ => True). split; [constructor|]; try contradiction.
  - intros [b []] _; cbn; split; congruence.
  - intros [b []] fuel buf e s' r _ X F; cbn [dec_decode rem_decoder dec_idle] in *; unfold rem_decode in X; cbn [rm_eos rm_buf] in *;
      (split; [exact Logic.I|]); intros _ ? [k ->]; try discriminate.
    destruct (bc_to_u64 _); [destruct (_ <=? _)%N|]; discriminate.
  - intros [b []] s' r _ X F; cbn in X; inj X; cbn; auto.
  - intros s ->. cbn. auto.
Qed.
Lemma pad_answers : answers pad_decoder true (fun st st' => exists b, st' = pad_dec_set st b)
    (fun st => exists b, st = pad_dec_new b).
Proof.
  exists (fun _ => True). split; [constructor|].
  - intros [b []] _; cbn; split; congruence.
  - intros [b []] fuel buf e s' r _ X F; cbn [dec_decode pad_decoder dec_idle] in *; unfold pad_decode in X; cbn [pd_eos pd_expected] in *;
      (split; [exact Logic.I|]); intros _ ? [k ->]; try discriminate.
    destruct b; [destruct (forallb _ _)|]; inj X; try discriminate. reflexivity.
  - intros [b []] s' r _ X F; cbn in X; inj X; cbn; auto.
  - intros [b f] s' _ [x ->]. cbn. auto.
  - intros s [b ->]. cbn. auto.
Qed.
Lemma mono_answers : forall I (f : MonoDecode I),
  answers (mono_decoder f) true (fun _ _ => False) (fun st => st = mono_dec_new).
Proof.
  intros I f. exists (fun _ => True). split; [constructor|]; try contradiction.
  - intros [[i|] b] _; cbn; split; congruence.
  - intros [[i|] b] fuel buf e s' r _ X F; cbn [dec_decode mono_decoder dec_idle] in *; unfold mono_decode in X; cbn [md_item md_buf] in *;
      (split; [exact Logic.I|]); intros _ ? [k ->]; try discriminate.
    destruct (is_reached e); [|discriminate]. destruct (f _) as [[?|?] ?]; inj X; try discriminate. reflexivity.
  - intros [[i|] b] s' r _ X F; cbn in X; inj X; cbn; auto.
  - intros s ->. cbn. auto.
Qed.

(** ** Combinators *)
(** Only the item of [finish_decoding] is another. *)
Lemma finish_tells : forall S I T (D : Decoder S I) (D' : Decoder S T) b Conf L,
  (forall fuel s buf e, dec_decode D' fuel s buf e = dec_decode D fuel s buf e) ->
  (forall s, fst (dec_finish D' s) = fst (dec_finish D s)) ->
  (forall s, fair (snd (dec_finish D' s)) -> fair (snd (dec_finish D s))) ->
  (forall s, dec_req D' s = dec_req D s) -> (forall s, dec_idle D' s = dec_idle D s) ->
  tells D b Conf L -> tells D' b Conf L.
Proof.
  intros S I T D D' b Conf L H1 H2 H3 H4 H5 T0. constructor.
  - intros s Ls. rewrite H4, H5. now apply (tl_agree T0).
  - intros s fuel buf e s' r Ls X F. rewrite H1 in X. rewrite !H5. eapply (tl_decode T0); eauto.
  - intros s s' r Ls X F. specialize (H2 s). specialize (H3 s). rewrite X in *. cbn in *.
    destruct (dec_finish D s) as [s1 r1] eqn:Y. cbn in *. subst s1. rewrite H5. eapply (tl_finish T0); eauto.
  - intros s s' Ls C. rewrite !H5. eapply (tl_set T0); eauto.
Qed.
Lemma map_err_tells : forall S I (D : Decoder S I) f b Conf L,
  tells D b Conf L -> tells (map_err_decoder D f) b Conf L.
Proof.
  intros S I D f b Conf L T. constructor.
  - exact (tl_agree T).
  - intros s fuel buf e s' r Ls X F. cbn in X |- *. destruct (dec_decode D fuel s buf e) as [s1 r1] eqn:Y. inj X.
    destruct (tl_decode T _ _ _ _ Ls Y) as [A B]; [destruct r1; auto; cbn in *; unfair|].
    split; auto. intros ? ? [k K]. apply B; auto. destruct r1; cbn in K; try discriminate; eauto.
  - intros s s' r Ls X F. cbn in X |- *. destruct (dec_finish D s) as [s1 r1] eqn:Y. inj X.
    eapply (tl_finish T); eauto. destruct r1; auto; cbn in *; unfair.
  - exact (tl_set T).
Qed.

Lemma and_then_answers : forall S0 S1 I0 I1 (D0 : Decoder S0 I0) (D1 : Decoder S1 I1) (f : I0 -> S1)
    b Conf0 Conf1 Init0 (Init1 : S1 -> Prop),
    answers D0 true Conf0 Init0 -> answers D1 b Conf1 Init1 -> (forall i, Init1 (f i)) ->
    answers (and_then_decoder D0 D1 f) b
      (fun st st' =>
         (Conf0 (at_inner0 st) (at_inner0 st') /\ at_inner1 st' = at_inner1 st) \/
         (at_inner0 st' = at_inner0 st /\
          exists s1 s1', at_inner1 st = Some s1 /\ at_inner1 st' = Some s1' /\ Conf1 s1 s1'))
      (fun st => exists s0, Init0 s0 /\ st = and_then_new s0).
Proof.
  intros S0 S1 I0 I1 D0 D1 f b Conf0 Conf1 Init0 Init1 (L0 & T0 & N0) (L1 & T1 & N1) HF.
  set (L := fun st : AndThen S0 S1 => L0 (at_inner0 st) /\ dec_idle D0 (at_inner0 st) = false /\
            match at_inner1 st with Some s1 => L1 s1 | None => True end).
  assert (BODY : forall fuel s0 s1 off buf e s' r, L0 s0 -> dec_idle D0 s0 = false -> L1 s1 ->
    and_then_body D1 fuel s0 s1 off buf e = (s', r) -> fair r ->
    L s' /\ (b = true -> (exists k, r = Err k) -> dec_idle (and_then_decoder D0 D1 f) s' = false)).
  { intros fuel s0 s1 off buf e s' r A B C X F. unfold and_then_body in X.
    pose proof (@try_tells _ _ _ _ _ _ fuel s1 off buf e T1 C) as Y. destruct (try_decode D1 fuel s1 off buf e) as [s1' o|s1' r'].
    - inj X. split; [repeat split; cbn; tauto|]. intros _ [k K]; discriminate.
    - inj X. destruct (Y F) as [Y1 Y2]. split; [repeat split; cbn; tauto|]. cbn. auto. }
  exists L. split; [constructor|].
  - intros [s0 [s1|]] (A & B & C); cbn in *; [now apply (tl_agree T1)|].
    split; [discriminate|]. intros X. apply (tl_agree T0 _ A) in X. congruence.
  - intros [s0 [s1|]] fuel buf e s' r (A & B & C) X F; cbn in A, B, C; cbn [dec_decode and_then_decoder] in X;
      unfold and_then_decode in X; cbn [at_inner0 at_inner1] in X.
    + destruct (BODY _ _ _ _ _ _ _ _ A B C X F) as [P Q]. auto.
    + pose proof (@try_tells _ _ _ _ _ _ fuel s0 0 buf e T0 A) as Y. destruct (try_decode D0 fuel s0 0 buf e) as [s0' o|s0' r'].
      * destruct Y as [Y1 Y2]. destruct (dec_finish D0 s0') as [s0'' r0] eqn:Z.
        pose proof (tl_finish T0 _ Y1 Z) as W. destruct r0 as [i0|k| |]; try (inj X; unfair).
        -- destruct (W (fair_ok _)) as [W1 W2]. destruct (N1 _ (HF i0)) as [V1 V2].
           destruct (BODY _ _ _ _ _ _ _ _ W1 (W2 eq_refl) V1 X F) as [P Q]. auto.
        -- inj X. destruct (W (fair_err _ _)) as [W1 W2]. split; [repeat split; cbn; auto|]. reflexivity.
      * inj X. destruct (Y F) as [Y1 Y2]. split; [repeat split; cbn; auto|]. reflexivity.
  - intros [s0 [s1|]] s' r (A & B & C) X F; cbn in *; inj X; (split; [repeat split; cbn; auto|reflexivity]).
  - intros [s0 o] [s0' o'] (A & B & C) [[C0 E]|[E (s1 & s1' & E1 & E2 & C1)]]; cbn in *; subst.
    + destruct (tl_set T0 _ _ A C0) as [P Q]. split; [repeat split; cbn; auto|reflexivity]. rewrite Q; auto.
    + destruct (tl_set T1 _ _ C C1) as [P Q]. split; [repeat split; cbn; auto|]. auto.
  - intros st (s0 & I & ->). destruct (N0 _ I) as [P Q]. split; [repeat split; cbn; auto|]. reflexivity.
Qed.

Lemma omit_answers : forall S I (D : Decoder S I) b Conf Init,
    answers D b Conf Init ->
    answers (omit_decoder D) false
      (fun st st' => (exists o, st' = omit_set st o) \/
                     (Conf (om_inner st) (om_inner st') /\ om_omit st' = om_omit st))
      (fun st => Init (om_inner st)).
Proof.
  intros S I D b Conf Init (L & T & N). exists (fun st => L (om_inner st)).
  split; [constructor|]; try (intros; split; [|discriminate]).
  - intros [s []] Ls; cbn in *; [now split|now apply (tl_agree T)].
  - destruct s as [s []]; cbn in *; [inj H0; exact H|]. destruct (dec_decode D fuel s buf e) as [s1 r1] eqn:Y. inj H0.
    cbn. eapply (tl_decode T); eauto.
  - destruct s as [s []]; cbn in *; [inj H0; exact H|]. destruct (dec_finish D s) as [s1 r1] eqn:Y. inj H0.
    cbn. eapply (tl_finish T); eauto. destruct r1; auto; cbn in *; unfair.
  - destruct H0 as [[o ->]|[C E]]; auto. eapply (tl_set T); eauto.
  - eapply N; eauto.
Qed.
Lemma collect_answers : forall S I (D : Decoder S I) Conf Init,
    answers D true Conf Init ->
    answers (collect_decoder D) true
      (fun st st' => Conf (cl_inner st) (cl_inner st') /\ cl_items st' = cl_items st /\ cl_eos st' = cl_eos st)
      (fun st => exists s, Init s /\ st = collect_new s).
Proof.
  intros S I D Conf Init (L & T & N).
  set (M := fun st : Collect S I => L (cl_inner st) /\ dec_idle D (cl_inner st) = false).
  assert (LOOP : forall n fuel s items off buf e s' r, L s -> dec_idle D s = false ->
    collect_loop D n fuel s items off buf e = (s', r) -> fair r ->
    M s' /\ ((exists k, r = Err k) -> cl_eos s' = false)).
  { induction n as [|n IH]; intros fuel s items off buf e s' r A B X F; cbn [collect_loop] in X;
      (destruct (off <? length buf); [|inj X; split; [split; auto|intros [k K]; discriminate]]); [inj X; unfair|].
    pose proof (@try_tells _ _ _ _ _ _ fuel s off buf e T A) as Y. destruct (try_decode D fuel s off buf e) as [s1 o|s1 r1].
    - destruct Y as [Y1 Y2]. destruct (dec_finish D s1) as [s2 r2] eqn:Z. pose proof (tl_finish T _ Y1 Z) as W.
      destruct r2 as [i|k| |]; try (inj X; unfair).
      + destruct (W (fair_ok _)) as [W1 W2]. eapply IH; eauto.
      + inj X. destruct (W (fair_err _ _)) as [W1 W2]. split; [split; auto|]. reflexivity.
    - inj X. destruct (Y F) as [Y1 Y2]. split; [split; auto|reflexivity]. }
  exists M. split; [constructor|].
  - intros [s is []] [A B]; cbn in *; [now split|]. split; [discriminate|]. intros X. apply (tl_agree T _ A) in X. congruence.
  - intros [s is []] fuel buf e s' r [A B] X F; cbn [dec_decode collect_decoder cl_eos cl_inner cl_items] in *.
    + inj X. split; [split; auto|]. intros _ _ [k K]; discriminate.
    + destruct (LOOP _ _ _ _ _ _ _ _ _ A B X F) as [P Q]. auto.
  - intros [s is []] s' r [A B] X F; cbn in *; inj X; (split; [split; auto|reflexivity]).
  - intros [s is o] [s' is' o'] [A B] (C & E & E'); cbn in *; subst. destruct (tl_set T _ _ A C) as [P Q].
    split; [split; cbn; auto|reflexivity]. rewrite Q; auto.
  - intros st (s & I0 & ->). destruct (N _ I0) as [P Q]. split; [split; cbn; auto|reflexivity].
Qed.
Lemma collectn_answers : forall S I (D : Decoder S I) Conf Init,
    answers D true Conf Init ->
    answers (collectn_decoder D) false
      (fun st st' => (exists n, st' = collectn_set st n) \/
                     (Conf (cn_inner st) (cn_inner st') /\ cn_remaining st' = cn_remaining st /\
                      cn_items st' = cn_items st))
      (fun st => exists s n, Init s /\ st = collectn_new s n).
Proof.
  intros S I D Conf Init (L & T & N).
  set (M := fun st : CollectN S I => L (cn_inner st) /\ dec_idle D (cn_inner st) = false).
  assert (LOOP : forall n fuel s items off buf e s' r, L s -> dec_idle D s = false ->
    collectn_loop D fuel n s items off buf e = (s', r) -> fair r -> M s').
  { induction n as [|n IH]; intros fuel s items off buf e s' r A B X F; cbn [collectn_loop] in X.
    { inj X. split; auto. }
    destruct (off <? length buf); [|inj X; split; auto].
    pose proof (@try_tells _ _ _ _ _ _ fuel s off buf e T A) as Y. destruct (try_decode D fuel s off buf e) as [s1 o|s1 r1].
    - destruct Y as [Y1 Y2]. destruct (dec_finish D s1) as [s2 r2] eqn:Z. pose proof (tl_finish T _ Y1 Z) as W.
      destruct r2 as [i|k| |]; try (inj X; unfair).
      + destruct (W (fair_ok _)) as [W1 W2]. eapply IH; eauto.
      + inj X. destruct (W (fair_err _ _)) as [W1 W2]. split; auto.
    - inj X. destruct (Y F) as [Y1 Y2]. split; auto. }
  exists M. split; [constructor|]; try (intros; split; [|discriminate]).
  - intros [s n is] [A B]; cbn in *. destruct (n =? 0); [now split|]. split; [discriminate|]. intros X. apply (tl_agree T _ A) in X. congruence.
  - destruct s as [s n is], H as [A B]. exact (LOOP _ _ _ _ _ _ _ _ _ A B H0 H1).
  - destruct s as [s n is], H as [A B]; cbn in *. destruct (n =? 0); inj H0; split; auto.
  - destruct s as [s n is], H as [A B], H0 as [[m ->]|(C & E & E')]; [split; auto|]. destruct (tl_set T _ _ A C) as [P Q].
    split; auto. rewrite Q; auto.
  - destruct H as (s1 & n & I0 & ->). destruct (N _ I0) as [P Q]. split; cbn; auto.
Qed.
Lemma max_answers : forall S I (D : Decoder S I) b Conf Init,
    answers D b Conf Init ->
    answers (max_decoder D) b
      (fun st st' => (exists n, st' = fst (max_set st n)) \/
                     (Conf (mx_inner st) (mx_inner st') /\ mx_consumed st' = mx_consumed st /\
                      mx_max st' = mx_max st))
      (fun st => exists s n, Init s /\ st = max_new s n).
Proof.
  intros S I D b Conf Init (L & T & N). exists (fun st => L (mx_inner st)). split; [constructor|].
  - intros [s c m] Ls; cbn in *. now apply (tl_agree T).
  - intros [s c m] fuel buf e s' r Ls X F; cbn [mx_inner] in *; cbn [dec_decode max_decoder dec_idle] in *. unfold max_decode in X.
    destruct (max_check _ _ _) as [u|k| |]; cbn [rcast] in X; try (inj X; unfair).
    + cbn [mx_inner mx_consumed mx_max] in X. destruct (dec_decode D fuel s buf e) as [s1 r1] eqn:Y.
      pose proof (tl_decode T _ _ _ _ Ls Y) as A. destruct r1 as [n|k| |]; try (inj X; unfair).
      * destruct (u64_add _ _); inj X; [|unfair]. destruct (A (fair_ok _)) as [A1 A2]. split; [auto|]. intros _ _ [k K]; discriminate.
      * inj X. exact (A F).
    + inj X. split; auto.
  - intros [s c m] s' r Ls X F; cbn in *. destruct (dec_finish D s) as [s1 r1] eqn:Y. inj X. cbn. eapply (tl_finish T); eauto.
  - intros [s c m] st' Ls [[n ->]|(C & E & E')].
    + unfold max_set. cbn. destruct (_ <=? _)%N; cbn; auto.
    + eapply (tl_set T); eauto.
  - intros st (s & n & I0 & ->). exact (N _ I0).
Qed.
Lemma slice_answers : forall S I (D : Decoder S I) b Conf Init,
    answers D b Conf Init ->
    answers (slice_decoder D) b
      (fun st st' => (exists n, st' = slice_set st n) \/
                     (Conf (sl_inner st) (sl_inner st') /\ sl_consumable st' = sl_consumable st))
      (fun st => exists s, Init s /\ st = slice_new s).
Proof.
  intros S I D b Conf Init (L & T & N). exists (fun st => L (sl_inner st)). split; [constructor|].
  - intros [s c] Ls; cbn in *. now apply (tl_agree T).
  - intros [s c] fuel buf e s' r Ls X F; cbn [sl_inner] in *; cbn [dec_decode slice_decoder dec_idle] in *. unfold slice_decode in X.
    cbn [sl_inner sl_consumable] in X. destruct (eos_back _ _) as [e'|]; [|inj X; unfair].
    destruct (dec_decode D fuel s _ e') as [s1 r1] eqn:Y.
    pose proof (tl_decode T _ _ _ _ Ls Y) as A. destruct r1 as [n|k| |]; try (inj X; unfair).
    + destruct (u64_sub _ _); inj X; [|unfair]. destruct (A (fair_ok _)) as [A1 A2]. split; [auto|]. intros _ _ [k K]; discriminate.
    + inj X. exact (A F).
  - intros [s c] s' r Ls X F; cbn in *. destruct (dec_finish D s) as [s1 r1] eqn:Y. inj X. cbn. eapply (tl_finish T); eauto.
  - intros [s c] st' Ls [[n ->]|(C & E)]; [cbn; auto|]. eapply (tl_set T); eauto.
  - intros st (s & I0 & ->). exact (N _ I0).
Qed.
Lemma peek_answers : forall S I (D : Decoder S I) Conf Init,
    answers D true Conf Init ->
    answers (peek_decoder D) true
      (fun st st' => Conf (pk_inner st) (pk_inner st') /\ pk_item st' = pk_item st)
      (fun st => exists s, Init s /\ st = peek_new s).
Proof.
  intros S I D Conf Init (L & T & N). exists (fun st => L (pk_inner st) /\ dec_idle D (pk_inner st) = false). split; [constructor|].
  - intros [s [i|]] [A B]; cbn in *; [now split|]. split; [discriminate|]. intros X. apply (tl_agree T _ A) in X. congruence.
  - intros [s [i|]] fuel buf e s' r [A B] X F; cbn [dec_decode peek_decoder dec_idle pk_inner pk_item] in *; unfold peek_decode in X;
      cbn [pk_inner pk_item] in X.
    + inj X. split; auto.
    + destruct (dec_decode D fuel s buf e) as [s1 r1] eqn:Y. pose proof (tl_decode T _ _ _ _ A Y) as W.
      destruct r1 as [n|k| |]; try (inj X; unfair).
      * destruct (W (fair_ok _)) as [W1 _]. destruct (dec_idle D s1) eqn:id.
        -- destruct (dec_finish D s1) as [s2 r2] eqn:Z. pose proof (tl_finish T _ W1 Z) as V.
           destruct r2 as [i|k| |]; try (inj X; unfair); inj X; cbn.
           ++ destruct (V (fair_ok _)) as [V1 V2]. split; auto. intros _ _ [k K]; discriminate.
           ++ destruct (V (fair_err _ _)) as [V1 V2]. split; auto.
        -- inj X. cbn. split; auto.
      * inj X. cbn. destruct (W F) as [W1 W2]. split; auto. split; auto. apply W2; eauto.
  - intros [s [i|]] s' r [A B] X F; cbn in *; inj X; cbn; auto.
  - intros [s o] [s' o'] [A B] [C E]; cbn in *; subst. destruct (tl_set T _ _ A C) as [P Q]. split; auto. split; auto. rewrite Q; auto.
  - intros st (s & I0 & ->). destruct (N _ I0) as [P Q]. cbn. auto.
Qed.
Lemma maybe_answers : forall S I (D : Decoder S I) b Conf Init,
    answers D b Conf Init ->
    answers (maybe_decoder D) b
      (fun st st' => Conf (my_inner st) (my_inner st') /\ my_started st' = my_started st)
      (fun st => exists s, Init s /\ st = maybe_new s).
Proof.
  intros S I D b Conf Init (L & T & N). exists (fun st => L (my_inner st)). split; [constructor|].
  - intros [s c] Ls; cbn in *. now apply (tl_agree T).
  - intros [s c] fuel buf e s' r Ls X F; cbn [my_inner] in *; cbn [dec_decode maybe_decoder dec_idle] in *. unfold maybe_decode in X.
    cbn [my_inner my_started] in X. match type of X with context [dec_decode D fuel s buf ?e0] =>
      destruct (dec_decode D fuel s buf e0) as [s1 r1] eqn:Y end.
    pose proof (tl_decode T _ _ _ _ Ls Y) as A. destruct r1 as [n|k| |]; try (inj X; unfair); inj X; cbn; exact (A F).
  - intros [s c] s' r Ls X F; cbn in *. destruct (dec_finish D s) as [s1 r1] eqn:Y. inj X. cbn. eapply (tl_finish T); eauto.
  - intros [s c] st' Ls [C E]. eapply (tl_set T); eauto.
  - intros st (s & I0 & ->). exact (N _ I0).
Qed.

(** ** Tuples *)
Lemma one_tells : forall S I (D : Decoder S I) b Conf L,
  tells D b Conf L -> tells (tuple_of_dec_parts (dp_one D)) b Conf L.
Proof.
  intros S I D b Conf L T. constructor.
  - intros s Ls. cbn. rewrite add0. now apply (tl_agree T).
  - intros s fuel buf e s' r Ls X F. cbn in X |- *. pose proof (@try_tells _ _ _ _ _ _ fuel s 0 buf e T Ls) as Y.
    destruct (try_decode D fuel s 0 buf e); inj X.
    + split; [tauto|]. intros _ _ [k K]; discriminate.
    + destruct (Y F) as [P Q]. auto.
  - exact (tl_finish T).
  - exact (tl_set T).
Qed.
Lemma snoc_tells : forall S0 S1 I0 I1 (P : DecParts S0 I0) (D1 : Decoder S1 I1) b Conf0 Conf1 L0 L1,
  parts_ok P -> tells (tuple_of_dec_parts P) b Conf0 L0 -> tells D1 b Conf1 L1 ->
  tells (tuple_of_dec_parts (dp_snoc P D1)) b
    (fun s s' => (Conf0 (fst s) (fst s') /\ snd s' = snd s) \/ (fst s' = fst s /\ Conf1 (snd s) (snd s')))
    (fun s => L0 (fst s) /\ L1 (snd s)).
Proof.
  intros S0 S1 I0 I1 P D1 b Conf0 Conf1 L0 L1 PO T0 T1. constructor.
  - intros [s0 s1] [A B]; cbn in *. rewrite add_zero. rewrite <- (tl_agree T1 _ B). rewrite <- (tl_agree T0 _ A). cbn.
    apply andb_true_iff.
  - intros [s0 s1] fuel buf e s' r [A B] X F; cbn in A, B; cbn [dec_decode tuple_of_dec_parts dp_decode dp_snoc fst snd dec_idle dp_idle] in *.
    pose proof (tl_decode T0 s0 fuel buf e) as Z. cbn [dec_decode tuple_of_dec_parts dec_idle] in Z.
    destruct (dp_decode P fuel s0 0 buf e) as [s0' o|s0' r0] eqn:Y.
    + destruct (Z _ _ A eq_refl (fair_ok _)) as [Z1 _].
      pose proof (@try_tells _ _ _ _ _ _ fuel s1 o buf e T1 B) as W. destruct (try_decode D1 fuel s1 o buf e); inj X; cbn [fst snd].
      * split; [tauto|]. intros _ _ [k K]; discriminate.
      * destruct (W F) as [W1 W2]. split; [tauto|]. rewrite (po_go PO _ _ _ _ _ Y). intros -> _ _. cbn. auto.
    + inj X. cbn [fst snd]. destruct (Z _ _ A eq_refl F) as [Z1 Z2]. split; [tauto|]. intros E1 E2 E3. rewrite Z2; auto.
      destruct (dp_idle P s0) eqn:id; auto. rewrite (po_idle PO fuel s0 0 buf e id) in Y. discriminate.
  - intros [s0 s1] s' r [A B] X F; cbn in A, B; cbn [dec_finish tuple_of_dec_parts dp_finish dp_snoc fst snd dec_idle dp_idle] in *.
    pose proof (tl_finish T0 s0) as Z. cbn [dec_finish tuple_of_dec_parts dec_idle] in Z.
    destruct (dp_finish P s0) as [s0' r0]. specialize (Z _ _ A eq_refl).
    destruct r0 as [i0|k| |]; try (inj X; cbn in *; unfair).
    + destruct (Z (fair_ok _)) as [Z1 Z2]. destruct (dec_finish D1 s1) as [s1' r1] eqn:Y. inj X. cbn [fst snd].
      destruct (tl_finish T1 _ B Y) as [W1 W2]; [destruct r1; auto; cbn in *; unfair|]. split; [tauto|]. intros E. rewrite Z2; auto.
    + inj X. cbn [fst snd]. destruct (Z (fair_err _ _)) as [Z1 Z2]. split; [tauto|]. intros E. rewrite Z2; auto.
  - intros [s0 s1] [s0' s1'] [A B] [[C E]|[E C]]; cbn in *; subst.
    + destruct (tl_set T0 _ _ A C) as [Q R]. split; auto. intros E. cbn in R. rewrite R; auto.
    + destruct (tl_set T1 _ _ B C) as [Q R]. split; auto. intros E. rewrite R; auto.
Qed.

Lemma told_answers : forall S I (D : Decoder S I) b Conf Init, told D b Conf Init -> answers D b Conf Init.
Proof.
  induction 1.
  - eexists; eauto.
  - destruct IHtold as (L & T & N). exists L. split; [constructor|].
    + exact (tl_agree T).
    + intros s fuel buf e s' r Ls X F. destruct (tl_decode T _ _ _ _ Ls X F). auto.
    + intros s s' r Ls X F. destruct (tl_finish T _ Ls X F). auto.
    + intros s s' Ls C. destruct (tl_set T s s' Ls); auto.
    + intros s I0. destruct (N s); auto.
  - apply null_answers.
  - eexists. split; [apply copy_tells|]. intros st (b & <- & ->). cbn [cd_bytes cd_off copy_dec_new]. split; [lia|]. destruct b; [discriminate|reflexivity].
  - apply bytes_answers.
  - apply rem_answers.
  - apply pad_answers.
  - apply mono_answers.
  - exists (fun st => length (cd_bytes st) = width /\ cd_off st <= width). split.
    + eapply finish_tells; [..|apply copy_tells]; try reflexivity; intros s;
        cbn [dec_finish num_decoder copy_decoder]; destruct (copy_finish vec_box s) as [s1 [x|k| |]]; cbn; auto; intros; unfair.
    + intros st ->. cbn [cd_bytes cd_off copy_dec_new num_dec_new]. rewrite repeat_length. split; [lia|].
      destruct width; [discriminate|reflexivity].
  - destruct IHtold as (L & TT & N). exists L. split; [|exact N].
    eapply finish_tells; [..|exact TT]; try reflexivity; intros s;
      cbn; destruct (dec_finish D s) as [s1 [x|k| |]]; cbn; auto; intros; unfair.
  - destruct IHtold as (L & TT & N). exists L. split; [|exact N].
    eapply finish_tells; [..|exact TT]; try reflexivity; intros s;
      cbn; destruct (dec_finish D s) as [s1 [x|k| |]]; cbn; auto; intros; unfair.
  - destruct IHtold as (L & TT & N). exists L. split; [|exact N].
    eapply finish_tells; [..|exact TT]; try reflexivity; intros s;
      cbn; destruct (dec_finish D s) as [s1 [x|k| |]]; cbn; auto; try (destruct (f x); auto); intros; unfair.
  - destruct IHtold as (L & T & N). exists L. split; [now apply map_err_tells|exact N].
  - eapply and_then_answers; eauto.
  - eapply omit_answers; eauto.
  - eapply collect_answers; eauto.
  - eapply collectn_answers; eauto.
  - eapply max_answers; eauto.
  - eapply slice_answers; eauto.
  - eapply peek_answers; eauto.
  - eapply maybe_answers; eauto.
  - destruct IHtold1 as (L0 & T0 & N0), IHtold2 as (L1 & T1 & N1). eexists. split.
    + apply snoc_tells; [apply dp_one_ok|apply one_tells; exact T0|exact T1].
    + intros [s0 s1] [A B]; cbn in *. destruct (N0 _ A), (N1 _ B). split; auto. intros ->. rewrite H2; auto.
  - destruct IHtold1 as (L0 & T0 & N0), IHtold2 as (L1 & T1 & N1). eexists. split.
    + apply snoc_tells; [assumption|exact T0|exact T1].
    + intros [s0 s1] [A B]; cbn in *. destruct (N0 _ A) as [P1 P2], (N1 _ B). split; auto. intros E. rewrite P2; auto.
Qed.
Lemma used_L : forall S I (D : Decoder S I) b Conf L s0 s,
  tells D b Conf L -> L s0 -> used D Conf s0 s -> L s.
Proof.
  induction 3; auto.
  - eapply (tl_decode H); eauto.
  - eapply (tl_finish H); eauto.
  - eapply (tl_set H); eauto.
Qed.

(** ** C91: the two answers agree, whatever was called before *)
Theorem C91_agree : forall S I (D : Decoder S I) b Conf Init s0 s,
  told D b Conf Init -> Init s0 -> used D Conf s0 s ->
  (dec_idle D s = true <-> dec_req D s = Ok (Finite 0)).
Proof.
  intros S I D b Conf Init s0 s H I0 U. destruct (told_answers H) as (L & T & N).
  apply (tl_agree T), (used_L T (proj1 (N _ I0)) U).
Qed.
Print Assumptions C91_agree.
(** If every item has at least one byte, a decoder asks for bytes when it is created, after
    [finish_decoding] (successful or not), and after a call that failed before the item was complete. *)
Theorem C91_asks : forall S I (D : Decoder S I) Conf Init s0 s,
  told D true Conf Init -> Init s0 -> used D Conf s0 s ->
  dec_req D s0 <> Ok (Finite 0) /\
  (forall s' r, dec_finish D s = (s', r) -> fair r -> dec_req D s' <> Ok (Finite 0)) /\
  (forall fuel buf e s' k, dec_req D s <> Ok (Finite 0) -> dec_decode D fuel s buf e = (s', Err k) ->
     dec_req D s' <> Ok (Finite 0)).
Proof.
  intros S I D Conf Init s0 s H I0 U. destruct (told_answers H) as (L & T & N).
  destruct (N _ I0) as [A0 B0]. pose proof (used_L T A0 U) as A.
  assert (NI : forall s, L s -> dec_idle D s = false -> dec_req D s <> Ok (Finite 0)).
  { intros x Lx E Q. apply (tl_agree T _ Lx) in Q. congruence. }
  split; [auto|split].
  - intros s' r X F. destruct (tl_finish T _ A X F). auto.
  - intros fuel buf e s' k Q X. destruct (tl_decode T _ _ _ _ A X (fair_err _ _)) as [P R]. apply NI; auto. apply R; eauto.
    destruct (dec_idle D s) eqn:id; auto. apply (tl_agree T _ A) in id. contradiction.
Qed.
Print Assumptions C91_asks.
(** Encoders: in every state, an idle encoder requires no bytes. *)
Theorem C91_encoder : forall S I (E : Encoder S I), etold E ->
  forall s, enc_idle E s = true -> enc_req E s = Ok (Finite 0).
Proof.
  induction 1; auto.
  - intros [[b|] o]; cbn; [discriminate|reflexivity].
  - intros [b|]; cbn; [discriminate|reflexivity].
  - intros s id. cbn in *. now rewrite id.
  - intros [[b|] o]; cbn; [discriminate|reflexivity].
  - intros s id. cbn in *. now rewrite id.
  - intros [s x n] id. cbn in *. now apply N.eqb_eq in id as ->.
  - intros [s c m]. exact (IHetold s).
  - intros [s [[b|] o]]; cbn; [discriminate|reflexivity].
  - intros [s c]. exact (IHetold s).
  - intros [s [i|]]; cbn; [discriminate|apply IHetold].
  - intros [s0 s1] id. cbn in *. apply andb_prop in id as [A B]. rewrite IHetold1, IHetold2 by auto. reflexivity.
  - intros [s0 s1] id. cbn in *. apply andb_prop in id as [A B]. cbn in IHetold1. rewrite IHetold1, IHetold2 by auto. reflexivity.
Qed.
Print Assumptions C91_encoder.

(** ** The hypotheses are met: frames of a count byte and that many numbers, then a number *)
Definition ex_frame := tuple2_decoder
  (and_then_decoder U8Decoder (collectn_decoder U16beDecoder) (fun n => collectn_new (num_dec_new 2) (N.to_nat n)))
  (peek_decoder (max_decoder U16beDecoder)).
Definition ex_frame0 : AndThen NumDec (CollectN NumDec N) * Peekable (MaxBytes NumDec) N :=
  (and_then_new (num_dec_new 1), peek_new (max_new (num_dec_new 2) 2)).
Example C91_example : exists Conf Init, told ex_frame false Conf Init /\ Init ex_frame0 /\
  (* a frame cut off by the end of the stream, an attempt to finish (it drops the frame), and a new count *)
  exists s, used ex_frame Conf ex_frame0 s /\ dec_req ex_frame s = Ok (Finite 4) /\ dec_idle ex_frame s = false.
Proof.
  do 2 eexists. split; [|split].
  - apply told_pair.
    + eapply told_and_then; [apply (told_num _ 1)|apply told_collectn; apply (told_num _ 2)|].
      intros i. do 2 eexists. split; reflexivity.
    + eapply told_weaken; [apply told_peek; apply told_max; apply (told_num _ 2)|discriminate|intros; eassumption|intros; eassumption].
  - cbn. split; [eexists; split; reflexivity|]. eexists. split; [|reflexivity]. do 2 eexists. split; reflexivity.
  - set (r1 := dec_decode ex_frame 9 ex_frame0 [x02; x00; x01; x00] (eos_new true)).
    set (r2 := dec_finish ex_frame (fst r1)).
    set (r3 := dec_decode ex_frame 9 (fst r2) [x05] (eos_new false)).
    exists (fst r3). split; [|split; vm_compute; reflexivity].
    eapply used_decode with (s := fst r2) (r := snd r3); [|apply surjective_pairing|split; vm_compute; discriminate].
    eapply used_finish with (s := fst r1) (r := snd r2); [|apply surjective_pairing|split; vm_compute; discriminate].
    eapply used_decode with (s := ex_frame0) (r := snd r1); [|apply surjective_pairing|split; vm_compute; discriminate].
    apply used_new.
Qed.
Example C91_asks_example : exists Conf Init,
  told (collect_decoder (tuple2_decoder U8Decoder (maybe_decoder U16beDecoder))) true Conf Init /\
  Init (collect_new (num_dec_new 1, maybe_new (num_dec_new 2))).
Proof.
  do 2 eexists. split.
  - apply told_collect. apply told_pair; [apply (told_num _ 1)|apply told_maybe; apply (told_num _ 2)].
  - eexists. split; [|reflexivity]. cbn. split; [reflexivity|]. eexists. split; reflexivity.
Qed.
Example C91_encoder_example :
  etold (tuple2_encoder (length_encoder (repeat_encoder U8Encoder)) (last_encoder (pre_encoder (optional_encoder U16beEncoder)))).
Proof. apply etold_pair; [apply etold_length|apply etold_last, etold_pre]. Qed.

(** ** Where they do not agree *)
(** The default of [is_idle] (src/decode.rs:81-83, src/encode.rs:69-71) is this agreement, so the user's own codecs
    that leave it to the default have it in every state; and where the agreement holds, the default would
    answer what the crate's decoders answer. *)
Theorem C91_default :
  (forall S I (D : Decoder S I) s, Serde.dec_default_idle D s = true <-> dec_req D s = Ok (Finite 0)) /\
  (forall S I (E : Encoder S I) s, Serde.enc_default_idle E s = true <-> enc_req E s = Ok (Finite 0)) /\
  (forall S I (D : Decoder S I) b Conf Init s0 s, told D b Conf Init -> Init s0 -> used D Conf s0 s ->
     Serde.dec_default_idle D s = dec_idle D s).
Proof.
  assert (DD : forall S I (D : Decoder S I) s, Serde.dec_default_idle D s = true <-> dec_req D s = Ok (Finite 0)).
  { intros S I D s. unfold Serde.dec_default_idle. destruct (dec_req D s) as [[n| |]|k| |]; split; try discriminate.
    - intros Q. apply N.eqb_eq in Q as ->. reflexivity.
    - intros Q. injection Q as ->. reflexivity. }
  split; [exact DD|]. split.
  - intros S I E s. unfold Serde.enc_default_idle. destruct (enc_req E s) as [[n| |]|k| |]; split; try discriminate.
    + intros Q. apply N.eqb_eq in Q as ->. reflexivity.
    + intros Q. injection Q as ->. reflexivity.
  - intros S I D b Conf Init s0 s H I0 U. pose proof (C91_agree H I0 U) as Q. specialize (DD _ _ D s).
    destruct (Serde.dec_default_idle D s), (dec_idle D s); try reflexivity; [symmetry|]; tauto.
Qed.
Print Assumptions C91_default.
(** [length(n)].  Over a decoder that is done before the [n] bytes: idle, but a byte is required, and there
    is no item.  Over one that is not done when the [n] bytes are over: no byte is required, but it is not idle. *)
Theorem C91_length_refuted :
  (exists s, dec_decode (length_decoder U8Decoder) 9 (length_new (num_dec_new 1) 2) [x01; x02] (eos_new false)
       = (s, Ok 1) /\
     dec_idle (length_decoder U8Decoder) s = true /\ dec_req (length_decoder U8Decoder) s = Ok (Finite 1) /\
     snd (dec_finish (length_decoder U8Decoder) s) = Err IncompleteDecoding) /\
  (exists s, dec_decode (length_decoder U16beDecoder) 9 (length_new (num_dec_new 2) 0) [] (eos_new false)
       = (s, Err UnexpectedEos) /\
     dec_idle (length_decoder U16beDecoder) s = false /\ dec_req (length_decoder U16beDecoder) s = Ok (Finite 0)).
Proof. split; eexists; repeat split; vm_compute; reflexivity. Qed.
Print Assumptions C91_length_refuted.
(** Items without a byte: [and_then], [collect], [collectn] and [peekable] have work to do that takes no byte. *)
Theorem C91_empty_items_refuted : forall S1 I1 (D1 : Decoder S1 I1) (f : unit -> S1),
  (dec_req (and_then_decoder null_decoder D1 f) (and_then_new tt) = Ok (Finite 0) /\
   dec_idle (and_then_decoder null_decoder D1 f) (and_then_new tt) = false) /\
  (dec_req (collect_decoder null_decoder) (collect_new tt) = Ok (Finite 0) /\
   dec_idle (collect_decoder null_decoder) (collect_new tt) = false) /\
  (dec_req (collectn_decoder null_decoder) (collectn_new tt 1) = Ok (Finite 0) /\
   dec_idle (collectn_decoder null_decoder) (collectn_new tt 1) = false) /\
  (dec_req (peek_decoder null_decoder) (peek_new tt) = Ok (Finite 0) /\
   dec_idle (peek_decoder null_decoder) (peek_new tt) = false).
Proof. repeat split. Qed.
Print Assumptions C91_empty_items_refuted.
(** Encoders: an item without a byte requires none, but the encoder is not idle before [encode] is called. *)
Theorem C91_empty_item_refuted : exists s, enc_start (bytes_encoder vec_box) 9 bytes_enc_new [] = (s, Ok tt) /\
  enc_req (bytes_encoder vec_box) s = Ok (Finite 0) /\ enc_idle (bytes_encoder vec_box) s = false.
Proof. eexists. repeat split. Qed.
Print Assumptions C91_empty_item_refuted.
