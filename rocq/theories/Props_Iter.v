(** * C82: [repeat()] over lazy and endless iterators *)
From Verif Require Export Iter UniverseProofs Observe.
From Verif Require Props_Num Props_Writes.
Set Implicit Arguments.

Lemma yields_app : forall I T (next : T -> option I * T) it xs it1 ys it2,
  yields next it xs it1 -> yields next it1 ys it2 -> yields next it (xs ++ ys) it2.
Proof. intros I T next it xs it1 ys it2 H. induction H; cbn; auto. intros. econstructor; eauto. Qed.
Lemma last_app : forall A (a b : list A) d, last (a ++ b) d = last b (last a d).
Proof.
  intros A a. induction a as [|x a IH]; intros b d; auto. cbn [app].
  destruct b as [|y b]; [now rewrite app_nil_r|].
  assert (H : forall l (x d : A), l <> [] -> last (x :: l) d = last l d) by (intros [|]; cbn; congruence).
  rewrite H by (destruct a; discriminate). rewrite IH.
  assert (H2 : forall (l : list A) d d', l <> [] -> last l d = last l d').
  { clear. induction l as [|x l IH]; intros d d' N; [congruence|]. destruct l; auto. apply (IH d d'). discriminate. }
  apply H2. discriminate.
Qed.

Section It.
  Context {S I T : Type} (E : Encoder S I) (next : T -> option I * T) (f0 : nat) (P : S -> Prop) (RS : rests E P).
  Implicit Types (it : T).

  (** [w1] is what the items already pulled have still to output. *)
  Lemma it_pull : forall s w1 ws xs it it' fuel,
    emits E f0 P s w1 -> (w1 = [] -> P s) -> rep_items E f0 P ws xs -> yields next it xs it' -> f0 < fuel ->
    (w1 = [] /\ ws = [] /\ xs = [] /\ it = it' /\ P s) \/
    (exists s' w1' vs us ys zs it1, ws = vs ++ us /\ xs = ys ++ zs /\ length vs = length ys /\
       yields next it ys it1 /\ yields next it1 zs it' /\
       w1 ++ concat vs = w1' /\ w1' = last vs w1 /\ w1' <> [] /\
       iter_pull E next fuel fuel s (Some it) = IPullGo s' (Some it1) /\
       emits E f0 P s' w1' /\ enc_idle E s' = false /\ rep_items E f0 P us zs).
  Proof.
    intros s w1 ws xs it it' fuel H HP HI Y F. destruct fuel as [|fuel]; [lia|].
    destruct (nil_or_not w1) as [->|NE].
    - specialize (HP eq_refl). destruct (RS HP) as (id & _).
      inversion HI as [|w i ws' is' [NW AC] HI']; subst.
      + left. inversion Y; subst. auto.
      + right. inversion Y as [|? ? it1 ? ? NX Y1]; subst. destruct (AC s HP (Datatypes.S fuel) ltac:(lia)) as (s' & ST & H').
        assert (id' : enc_idle E s' = false).
        { destruct (enc_idle E s') eqn:X; auto. destruct (emits_idle H' X) as [? _]. contradiction. }
        exists s', w, [w], ws', [i], is', it1. cbn [app concat last length]. rewrite app_nil_r.
        repeat (split; auto); [econstructor; eauto; constructor|].
        cbn [iter_pull]. rewrite id, NX, ST. destruct fuel; cbn [iter_pull]; now rewrite id'.
    - right. exists s, w1, [], ws, [], xs, it. cbn. rewrite app_nil_r.
      assert (id' : enc_idle E s = false).
      { destruct (enc_idle E s) eqn:X; auto. destruct (emits_idle H X) as [? _]. contradiction. }
      repeat (split; auto); [constructor|]. now rewrite id'.
  Qed.

  (** A call that does not come to the end of the items. *)
  Lemma it_more : forall n fuel it xs it' s w1 ws pre w b w' e,
    emits E f0 P s w1 -> (w1 = [] -> P s) -> rep_items E f0 P ws xs -> yields next it xs it' ->
    w1 ++ concat ws = w ++ w' -> length w = length b -> w' <> [] ->
    is_reached e = false -> length b < n -> f0 + length b < fuel ->
    exists s' w1' vs us ys zs it1,
      iter_loop E next n fuel (mkRepeatIter s (Some it)) (length pre) (pre ++ b) e
      = (mkRepeatIter s' (Some it1), pre ++ w, Ok (length (pre ++ b))) /\
      ws = vs ++ us /\ xs = ys ++ zs /\ length vs = length ys /\
      yields next it ys it1 /\ yields next it1 zs it' /\
      w1 ++ concat vs = w ++ w1' /\ (exists p, last vs w1 = p ++ w1') /\
      emits E f0 P s' w1' /\ (w1' = [] -> P s') /\ rep_items E f0 P us zs.
  Proof.
    induction n as [|n IH]; intros fuel it xs it' s w1 ws pre w b w' e H HP HI Y EQ LW NE NR N F; [lia|].
    cbn [iter_loop ri_items ri_inner].
    destruct (it_pull (fuel := fuel) H HP HI Y ltac:(lia)) as [(-> & -> & _)|X].
    { cbn in EQ. symmetry in EQ. apply app_eq_nil in EQ. tauto. }
    destruct X as (s1 & u1 & vs & us & ys & zs & it1 & -> & -> & LV & Y1 & Y2 & EV & LA & NU & -> & H1 & id1 & HI1).
    rewrite slice_from_app. rewrite concat_app, app_assoc, EV in EQ.
    destruct (app_cases _ _ _ _ EQ) as [(u1' & -> & EW & NU')|(b1 & EW & EC)].
    - (* the item does not fit *)
      destruct (emits_more H1 id1 LW NU' NR F) as (s2 & -> & id2 & H2).
      rewrite firstn_app_exact.
      destruct (length b =? 0) eqn:B0.
      + exists s2, u1', vs, us, ys, zs, it1. rewrite app_length.
        repeat (split; auto). { eexists; symmetry; eauto. } intros X; contradiction.
      + destruct (IH fuel it1 zs it' s2 u1' us (pre ++ w) [] [] w' e H2)
          as (s3 & v1 & vs2 & us2 & ys2 & zs2 & it2 & X & -> & -> & LV2 & Y3 & Y4 & EV2 & (p & LA2) & Z);
          auto; try (cbn; lia).
        { intros X; contradiction. }
        rewrite !app_nil_r in X. rewrite app_length in *. rewrite LW in X. rewrite X.
        exists s3, v1, (vs ++ vs2), us2, (ys ++ ys2), zs2, it2. rewrite <- !app_assoc. repeat (split; auto).
        * now rewrite !app_length, LV, LV2.
        * eapply yields_app; eauto.
        * rewrite concat_app, app_assoc, EV. rewrite <- app_assoc, EV2. reflexivity.
        * rewrite last_app, <- LA. destruct vs2 as [|v vs2].
          -- cbn in LA2. cbn. rewrite LA2. exists (w ++ p). now rewrite app_assoc.
          -- exists p. rewrite <- LA2. clear. revert v. induction vs2; intros v; auto. cbn [last] in *. apply IHvs2.
    - (* it does: go on with the next one *)
      subst w. rewrite app_length in LW.
      destruct (emits_last e H1 id1 (buf := b) (fuel := fuel) ltac:(lia) ltac:(lia)) as (s2 & -> & id2 & H2).
      rewrite firstn_app_exact. pose proof (length_nonnil NU).
      replace (length u1 =? 0) with false by lia.
      destruct (IH fuel it1 zs it' s2 [] us (pre ++ u1) b1 (skipn (length u1) b) w' e H2)
        as (s3 & v1 & vs2 & us2 & ys2 & zs2 & it2 & X & -> & -> & LV2 & Y3 & Y4 & EV2 & (p & LA2) & Z);
        auto; try (rewrite skipn_length; lia).
      { intros _. apply (emits_idle H2 id2). }
      rewrite app_length in X. rewrite !app_assoc. rewrite X.
      exists s3, v1, (vs ++ vs2), us2, (ys ++ ys2), zs2, it2. rewrite <- !app_assoc. repeat (split; auto).
      + do 2 f_equal. rewrite !app_length, skipn_length. lia.
      + now rewrite !app_length, LV, LV2.
      + eapply yields_app; eauto.
      + rewrite concat_app, app_assoc, EV. cbn in EV2. now rewrite EV2.
      + rewrite last_app, <- LA. destruct vs2 as [|v vs2].
        * cbn in LA2. apply eq_sym, app_eq_nil in LA2. destruct LA2 as [-> ->]. cbn. exists u1. now rewrite app_nil_r.
        * exists p. rewrite <- LA2. clear. revert v. induction vs2; intros v; auto. cbn [last] in *. apply IHvs2.
  Qed.

  (** A call with room for all that is left of a finite iterator. *)
  Lemma it_last : forall n fuel it xs it' s w1 ws pre b e,
    emits E f0 P s w1 -> (w1 = [] -> P s) -> rep_items E f0 P ws xs -> yields next it xs it' -> exhausted next it' ->
    length (w1 ++ concat ws) <= length b -> length b < n -> f0 + length b < fuel ->
    exists s',
      iter_loop E next n fuel (mkRepeatIter s (Some it)) (length pre) (pre ++ b) e
      = (mkRepeatIter s' None, pre ++ (w1 ++ concat ws) ++ skipn (length (w1 ++ concat ws)) b,
         Ok (length (pre ++ w1 ++ concat ws))) /\ P s'.
  Proof.
    induction n as [|n IH]; intros fuel it xs it' s w1 ws pre b e H HP HI Y EX LW N F; [lia|].
    cbn [iter_loop ri_items ri_inner].
    destruct (it_pull (fuel := fuel) H HP HI Y ltac:(lia)) as [(-> & -> & -> & -> & PP)|X].
    { exists s. destruct (RS PP) as (id & _). unfold exhausted in EX. destruct fuel; [lia|]. cbn [iter_pull].
      rewrite id. destruct (next it') as [[|] ?]; cbn in EX; [discriminate|]. cbn. rewrite app_nil_r. auto. }
    destruct X as (s1 & u1 & vs & us & ys & zs & it1 & -> & -> & LV & Y1 & Y2 & EV & LA & NU & -> & H1 & id1 & HI1).
    rewrite slice_from_app.
    assert (EE : w1 ++ concat (vs ++ us) = u1 ++ concat us) by now rewrite concat_app, app_assoc, EV.
    rewrite EE in *. clear EE. rewrite app_length in LW.
    destruct (emits_last e H1 id1 (buf := b) (fuel := fuel) ltac:(lia) ltac:(lia)) as (s2 & -> & id2 & H2).
    rewrite firstn_app_exact. pose proof (length_nonnil NU).
    replace (length u1 =? 0) with false by lia.
    destruct (IH fuel it1 zs it' s2 [] us (pre ++ u1) (skipn (length u1) b) e H2)
      as (s3 & X & PP); auto; try (cbn; rewrite skipn_length; lia).
    { intros _. apply (emits_idle H2 id2). }
    exists s3. rewrite app_length in X. rewrite !app_assoc. rewrite X. split; auto.
    cbn [app]. rewrite skipn_skipn, !app_length. rewrite <- !app_assoc.
    replace (length (concat us) + length u1) with (length u1 + length (concat us)) by lia.
    do 2 f_equal.
  Qed.
End It.

(** The items that have been pulled when the calls so far have written [out]. *)
Definition repeat_iter_fresh {S T} (P : S -> Prop) (st : RepeatIter S T) : Prop :=
  P (ri_inner st) /\ ri_items st = None.

Lemma rep_items_of : forall S I (E : Encoder S I) (fmt : format I) P ws xs,
  encodes E fmt P P -> (forall w i, fmt w i -> w <> []) -> Forall2 fmt ws xs ->
  exists f0, rep_items E f0 P ws xs.
Proof.
  intros S I E fmt P ws xs ENC NEF F2.
  apply (@forall2_max I ws xs (fun f0 w i => w <> [] /\ forall s, P s -> accepts E f0 P s i w)).
  - intros a b w i LE [? A]. split; auto. intros s PP. eapply accepts_fuel; eauto.
  - induction F2; constructor; auto. destruct (ENC _ _ H) as (f0 & A). exists f0. split; auto. eapply NEF; eauto.
Qed.

Lemma it_drain : forall S I T (E : Encoder S I) (next : T -> option I * T) f0 P, rests E P ->
  forall bufs fuel it xs it' s w1 ws out,
  emits E f0 P s w1 -> (w1 = [] -> P s) -> rep_items E f0 P ws xs -> yields next it xs it' ->
  room bufs < length (w1 ++ concat ws) -> f0 + room bufs < fuel ->
  exists s' w1' vs us ys zs it1,
    drain (repeat_iter_encoder E next) fuel (mkRepeatIter s (Some it)) out bufs
      = (mkRepeatIter s' (Some it1), out ++ firstn (room bufs) (w1 ++ concat ws), Ok tt) /\
    ws = vs ++ us /\ xs = ys ++ zs /\ length vs = length ys /\ yields next it ys it1 /\
    yields next it1 zs it' /\
    w1 ++ concat vs = firstn (room bufs) (w1 ++ concat ws) ++ w1' /\ (exists p, last vs w1 = p ++ w1') /\
    emits E f0 P s' w1' /\ (w1' = [] -> P s') /\ rep_items E f0 P us zs.
Proof.
  intros S I T E next f0 P RS. induction bufs as [|b bufs IH]; intros fuel it xs it' s w1 ws out H HP HI Y R F.
  - exists s, w1, [], ws, [], xs, it. cbn. rewrite !app_nil_r. repeat (split; auto); [constructor|]. now exists [].
  - change (room (b :: bufs)) with (length b + room bufs) in *.
    set (w := firstn (length b) (w1 ++ concat ws)). set (w' := skipn (length b) (w1 ++ concat ws)).
    assert (EQ : w1 ++ concat ws = w ++ w') by (symmetry; apply firstn_skipn).
    assert (LW : length w = length b) by (unfold w; rewrite firstn_length; lia).
    assert (NE : w' <> []). { intros X. rewrite EQ, X, app_nil_r in R. lia. }
    destruct (@it_more S I T E next f0 P RS fuel fuel it xs it' s w1 ws [] w b w' (eos_new false) H HP HI Y EQ LW NE eq_refl ltac:(lia) ltac:(lia))
      as (s1 & w2 & vs & us & ys & zs & it1 & X & -> & -> & LV & Y1 & Y2 & EV & (p & LA) & H1 & HP1 & HI1).
    cbn [app length] in X. cbn [drain enc_idle enc_encode repeat_iter_encoder repeat_iter_idle ri_items]. rewrite X.
    rewrite firstn_all2 by lia.
    assert (EW : w' = w2 ++ concat us).
    { rewrite concat_app, app_assoc, EV, <- app_assoc in EQ. now apply app_inv_head in EQ. }
    destruct (IH fuel it1 zs it' s1 w2 us (out ++ w) H1 HP1 HI1 Y2)
      as (s3 & w3 & vs2 & us2 & ys2 & zs2 & it2 & X2 & -> & -> & LV2 & Y3 & Y4 & EV2 & (p2 & LA2) & Z).
    { rewrite EQ, app_length, EW in R. lia. } { lia. }
    assert (FN : firstn (length b + room bufs) (w1 ++ concat (vs ++ vs2 ++ us2)) = w ++ firstn (room bufs) (w2 ++ concat (vs2 ++ us2))).
    { rewrite EQ, EW. rewrite <- LW at 1. apply firstn_app_2. }
    exists s3, w3, (vs ++ vs2), us2, (ys ++ ys2), zs2, it2. rewrite FN, <- !app_assoc.
    repeat (split; auto).
    + rewrite X2. now rewrite <- !app_assoc.
    + now rewrite !app_length, LV, LV2.
    + eapply yields_app; eauto.
    + rewrite concat_app, app_assoc, EV, <- app_assoc, EV2. reflexivity.
    + rewrite last_app. destruct vs2 as [|v vs2].
      * cbn in LA2. cbn. rewrite LA, LA2. exists (p ++ p2). now rewrite app_assoc.
      * exists p2. rewrite <- LA2. clear. revert v. induction vs2; intros v; auto. cbn [last] in *. apply IHvs2.
Qed.

(** ** While the iterator has items, every byte of the buffers is used, and at most one item is taken from the
    iterator beyond those whose bytes are all out.  Nothing is assumed about what the iterator does after [xs]: it
    may be endless. *)
Theorem C82_lazy : forall S I T (E : Encoder S I) (next : T -> option I * T) (fmt : format I) P s it xs it' ws bufs,
  rests E P -> encodes E fmt P P -> (forall w i, fmt w i -> w <> []) -> P s ->
  yields next it xs it' -> Forall2 fmt ws xs -> room bufs < length (concat ws) ->
  exists f0, forall fuel, f0 + room bufs < fuel ->
  exists st s' it1 k,
    enc_start (repeat_iter_encoder E next) fuel (repeat_iter_new s) it = (st, Ok tt) /\
    drain (repeat_iter_encoder E next) fuel st [] bufs
      = (mkRepeatIter s' (Some it1), firstn (room bufs) (concat ws), Ok tt) /\
    k <= length xs /\ yields next it (firstn k xs) it1 /\
    length (concat (firstn (k - 1) ws)) <= room bufs <= length (concat (firstn k ws)).
Proof.
  intros S I T E next fmt P s it xs it' ws bufs RS ENC NEF PS Y F2 R.
  destruct (rep_items_of ENC NEF F2) as (f0 & HI). exists f0. intros fuel F.
  destruct (it_drain (next := next) RS bufs (fuel := fuel) (it := it) (s := s) (w1 := []) (ws := ws) [] (f0 := f0) (it' := it') (xs := xs))
    as (s' & w1' & vs & us & ys & zs & it1 & X & -> & -> & LV & Y1 & _ & EV & (p & LA) & _); auto.
  { eapply emits_fuel; [|apply rests_emits; eauto]; lia. }
  exists (mkRepeatIter s (Some it)), s', it1, (length ys). split; auto. split; [exact X|].
  split; [rewrite app_length; lia|]. split; [now rewrite firstn_app_exact|].
  rewrite <- LV, firstn_app_exact. cbn [app] in EV.
  assert (L1 : length (firstn (room bufs) (concat (vs ++ us))) = room bufs) by (rewrite firstn_length; lia).
  apply (f_equal (@length byte)) in EV. rewrite app_length, L1 in EV. split; [|lia].
  destruct vs as [|v0 vs0]; [cbn; lia|].
  destruct (exists_last (l := v0 :: vs0)) as (vs' & v & EL); [discriminate|]. rewrite EL in *.
  rewrite last_app in LA. cbn in LA. subst v.
  rewrite concat_app in EV. cbn in EV. rewrite app_nil_r, !app_length in EV.
  rewrite app_length. cbn [length]. replace (length vs' + 1 - 1) with (length vs') by lia.
  rewrite <- app_assoc, firstn_app_exact. lia.
Qed.
Print Assumptions C82_lazy.

(** ** A finite iterator is written completely, and then dropped. *)
Theorem C82_finite : forall S I T (E : Encoder S I) (next : T -> option I * T) (fmt : format I) P s it xs it' ws bufs,
  rests E P -> encodes E fmt P P -> (forall w i, fmt w i -> w <> []) -> P s ->
  yields next it xs it' -> exhausted next it' -> Forall2 fmt ws xs ->
  bufs <> [] -> length (concat ws) <= room bufs ->
  exists f0, forall fuel, f0 + room bufs < fuel ->
  exists st s',
    enc_start (repeat_iter_encoder E next) fuel (repeat_iter_new s) it = (st, Ok tt) /\
    drain (repeat_iter_encoder E next) fuel st [] bufs = (repeat_iter_new s', concat ws, Ok tt) /\ P s'.
Proof.
  intros S I T E next fmt P s it xs it' ws bufs RS ENC NEF PS Y EX F2 NB R.
  destruct (rep_items_of ENC NEF F2) as (f0 & HI). exists f0. intros fuel F.
  exists (mkRepeatIter s (Some it)).
  assert (G : forall bufs it xs s w1 ws out,
    emits E f0 P s w1 -> (w1 = [] -> P s) -> rep_items E f0 P ws xs -> yields next it xs it' ->
    bufs <> [] -> length (w1 ++ concat ws) <= room bufs -> f0 + room bufs < fuel ->
    exists s', drain (repeat_iter_encoder E next) fuel (mkRepeatIter s (Some it)) out bufs
      = (repeat_iter_new s', out ++ w1 ++ concat ws, Ok tt) /\ P s').
  { clear - RS EX. induction bufs as [|b bufs IH]; intros it xs s w1 ws out H HP HI Y NB R F; [congruence|].
    change (room (b :: bufs)) with (length b + room bufs) in *.
    cbn [drain enc_idle enc_encode repeat_iter_encoder repeat_iter_idle ri_items].
    destruct (Nat.le_gt_cases (length (w1 ++ concat ws)) (length b)) as [LE|GT].
    - destruct (@it_last S I T E next f0 P RS fuel fuel it xs it' s w1 ws [] b (eos_new false) H HP HI Y EX LE ltac:(lia) ltac:(lia))
        as (s' & X & PS). cbn [app length] in X. rewrite X, firstn_app_exact.
      exists s'. split; auto. destruct bufs; reflexivity.
    - set (w := firstn (length b) (w1 ++ concat ws)). set (w' := skipn (length b) (w1 ++ concat ws)).
      assert (EQ : w1 ++ concat ws = w ++ w') by (symmetry; apply firstn_skipn).
      assert (LW : length w = length b) by (unfold w; rewrite firstn_length; lia).
      assert (NE : w' <> []). { intros X. rewrite EQ, X, app_nil_r in GT. lia. }
      destruct (@it_more S I T E next f0 P RS fuel fuel it xs it' s w1 ws [] w b w' (eos_new false) H HP HI Y EQ LW NE eq_refl ltac:(lia) ltac:(lia))
        as (s1 & w2 & vs & us & ys & zs & it1 & X & -> & -> & LV & Y1 & Y2 & EV & _ & H1 & HP1 & HI1).
      cbn [app length] in X. rewrite X. rewrite firstn_all2 by lia.
      assert (EW : w' = w2 ++ concat us).
      { rewrite concat_app, app_assoc, EV, <- app_assoc in EQ. now apply app_inv_head in EQ. }
      rewrite EQ in *. rewrite app_length in R.
      destruct (IH it1 zs s1 w2 us (out ++ w) H1 HP1 HI1 Y2) as (s' & X2 & PS); try lia.
      { intros ->. cbn in R. rewrite app_length in GT. lia. } { rewrite <- EW. lia. }
      exists s'. split; auto. rewrite X2, EW, <- app_assoc. reflexivity. }
  destruct (G bufs it xs s [] ws [] ltac:(eapply emits_fuel; [|apply rests_emits; eauto]; lia) (fun _ => PS) HI Y NB R F)
    as (s' & X & PS'). exists s'. split; [reflexivity|]. split; auto.
Qed.
Print Assumptions C82_finite.

(** ** An endless iterator: whatever the buffers, each is filled, and the encoder is never idle. *)
Theorem C82_endless : forall S I T (E : Encoder S I) (next : T -> option I * T) (fmt : format I) P s it bufs,
  rests E P -> encodes E fmt P P -> (forall w i, fmt w i -> w <> []) -> P s ->
  endless next it -> (forall xs it', yields next it xs it' -> Forall (fun i => exists w, fmt w i) xs) ->
  exists f0, forall fuel, f0 + room bufs < fuel ->
  exists st st' out,
    enc_start (repeat_iter_encoder E next) fuel (repeat_iter_new s) it = (st, Ok tt) /\
    drain (repeat_iter_encoder E next) fuel st [] bufs = (st', out, Ok tt) /\
    enc_idle (repeat_iter_encoder E next) st' = false /\ length out = room bufs /\
    exists xs it' ws rest, yields next it xs it' /\ Forall2 fmt ws xs /\ concat ws = out ++ rest.
Proof.
  intros S I T E next fmt P s it bufs RS ENC NEF PS EN FM.
  destruct (EN (Datatypes.S (room bufs))) as (xs & it' & LX & Y).
  assert (WS : exists ws, Forall2 fmt ws xs).
  { specialize (FM _ _ Y). clear - FM. induction FM as [|x xs (w & Fw) _ (ws & IH)]; [now exists []|].
    exists (w :: ws). now constructor. }
  destruct WS as (ws & F2).
  assert (LC : length xs <= length (concat ws)).
  { clear - F2 NEF. induction F2; cbn; auto. rewrite app_length. pose proof (length_nonnil (NEF _ _ H)). lia. }
  destruct (C82_lazy s bufs RS ENC NEF PS Y F2 ltac:(lia)) as (f0 & G). exists f0. intros fuel F.
  destruct (G fuel F) as (st & s' & it1 & k & ST & X & _).
  exists st, (mkRepeatIter s' (Some it1)), (firstn (room bufs) (concat ws)).
  split; auto. split; auto. split; auto. split; [rewrite firstn_length; lia|].
  exists xs, it', ws, (skipn (room bufs) (concat ws)). rewrite firstn_skipn. auto.
Qed.
Print Assumptions C82_endless.

(** ** An iterator that has returned [None] is not asked again: the encoder is idle and forgets it.  (So an iterator
    that is not fused is not restarted.) *)
Theorem C82_dropped : forall S I T (E : Encoder S I) (next : T -> option I * T) s fuel buf e,
  enc_idle E s = true ->
  enc_idle (repeat_iter_encoder E next) (mkRepeatIter s None) = true /\
  enc_encode (repeat_iter_encoder E next) (Datatypes.S fuel) (mkRepeatIter s None) buf e
    = (mkRepeatIter s None, buf, Ok 0).
Proof. intros. split; auto. cbn. now rewrite H. Qed.
Print Assumptions C82_dropped.

(** ** Over a list the model is the one of [Comb.v], so all that is proved there about [repeat()] holds for every
    iterator that hands out these items and ends: call by call the same results and related states. *)
Definition same_repeat {S I T} (next : T -> option I * T) (n : nat) (a : RepeatIter S T) (b : Repeat S I) : Prop :=
  ri_inner a = rp_inner b /\
  match ri_items a, rp_items b with
  | None, None => True
  | Some it, Some xs => length xs < n /\ exists it', yields next it xs it' /\ exhausted next it'
  | _, _ => False
  end.
Lemma pull_same : forall S I T (E : Encoder S I) (next : T -> option I * T) fuel xs n s it it',
  yields next it xs it' -> exhausted next it' -> length xs < n ->
  match repeat_pull E fuel s xs with
  | PullDone s1 => iter_pull E next n fuel s (Some it) = IPullDone s1
  | PullGo s1 zs => exists it1, iter_pull E next n fuel s (Some it) = IPullGo s1 (Some it1) /\
                      length zs <= length xs /\ yields next it1 zs it'
  | PullFail s1 zs r => exists it1, iter_pull E next n fuel s (Some it) = IPullFail s1 (Some it1) r /\
                      length zs <= length xs /\ yields next it1 zs it'
  end.
Proof.
  intros S I T E next fuel. induction xs as [|x xs IH]; intros n s it it' Y EX L; (destruct n as [|n]; [cbn in L; lia|]); cbn.
  - inversion Y; subst. destruct (enc_idle E s); [|eauto].
    unfold exhausted in EX. destruct (next it') as [[|] ?]; cbn in EX; [discriminate|auto].
  - destruct (enc_idle E s); [|eauto]. inversion Y as [|? ? it1 ? ? NX Y1]; subst. rewrite NX.
    destruct (enc_start E fuel s x) as [s' [[]|k| |]]; try (eexists; split; [reflexivity|]; split; [lia|eauto]).
    specialize (IH n s' it1 it' Y1 EX ltac:(cbn in L; lia)).
    destruct (repeat_pull E fuel s' xs); auto; destruct IH as (it2 & A & B & C); exists it2; split; auto.
Qed.
Theorem C82_as_list : forall S I T (E : Encoder S I) (next : T -> option I * T) n a b,
  same_repeat next n a b ->
  enc_idle (repeat_iter_encoder E next) a = enc_idle (repeat_encoder E) b /\
  enc_req (repeat_iter_encoder E next) a = enc_req (repeat_encoder E) b /\
  (forall fuel buf e, n <= fuel -> exists a' b' buf' r,
     enc_encode (repeat_iter_encoder E next) fuel a buf e = (a', buf', r) /\
     enc_encode (repeat_encoder E) fuel b buf e = (b', buf', r) /\ same_repeat next n a' b') /\
  (forall fuel it xs it', yields next it xs it' -> exhausted next it' -> length xs < n -> exists a' b' r,
     enc_start (repeat_iter_encoder E next) fuel a it = (a', r) /\
     enc_start (repeat_encoder E) fuel b xs = (b', r) /\ same_repeat next n a' b').
Proof.
  intros S I T E next n a b H.
  assert (ID : repeat_iter_idle a = repeat_idle b).
  { destruct a as [s [it|]], b as [s' [xs|]]; destruct H as [_ H]; cbn in H; try contradiction; reflexivity. }
  split; [exact ID|]. split; [cbn; now rewrite ID|]. split.
  - intros fuel buf e F. cbn [enc_encode repeat_iter_encoder repeat_encoder].
    enough (G : forall m off buf a b, m <= fuel -> same_repeat next n a b -> exists a' b' buf' r,
      iter_loop E next m fuel a off buf e = (a', buf', r) /\
      repeat_loop E m fuel b off buf e = (b', buf', r) /\ same_repeat next n a' b') by (apply G; auto).
    clear - F. induction m as [|m IH]; intros off buf a b M H; [cbn; eauto 10|].
    destruct a as [s o], b as [s' o']. destruct H as [HS H]; cbn in HS, H. subst s'. cbn [iter_loop repeat_loop ri_inner ri_items rp_inner rp_items].
    destruct o as [it|], o' as [xs|]; try contradiction.
    + destruct H as (L & it' & Y & EX). pose proof (pull_same E fuel s Y EX (n := fuel) ltac:(lia)) as PU.
      destruct (repeat_pull E fuel s xs) as [s1 zs|s1|s1 zs r].
      * destruct PU as (it1 & -> & LZ & Y1).
        assert (SR : forall s2 : S, same_repeat next n (mkRepeatIter s2 (Some it1)) (mkRepeat s2 (Some zs))).
        { intros s2. split; [reflexivity|]. cbn. split; [lia|]. now exists it'. }
        destruct (slice_from off buf) as [bb|]; [|do 4 eexists; split; [reflexivity|]; split; [reflexivity|apply SR]].
        destruct (enc_encode E fuel s1 bb e) as [[s2 b2] [sz|k| |]];
          try (do 4 eexists; split; [reflexivity|]; split; [reflexivity|apply SR]).
        destruct (sz =? 0); [do 4 eexists; split; [reflexivity|]; split; [reflexivity|apply SR]|].
        apply IH; auto; lia.
      * rewrite PU. do 4 eexists. split; [reflexivity|]. split; [reflexivity|]. split; auto. exact Logic.I.
      * destruct PU as (it1 & -> & LZ & Y1). do 4 eexists. split; [reflexivity|]. split; [reflexivity|].
        split; auto. cbn. split; [lia|eauto].
    + destruct fuel as [|fuel]; [lia|]. cbn [iter_pull repeat_pull].
      assert (SR : forall s2 : S, same_repeat next n (mkRepeatIter s2 None) (mkRepeat s2 None)) by (split; [reflexivity|exact Logic.I]).
      destruct (enc_idle E s); [do 4 eexists; split; [reflexivity|]; split; [reflexivity|apply SR]|].
      destruct (slice_from off buf) as [bb|]; [|do 4 eexists; split; [reflexivity|]; split; [reflexivity|apply SR]].
      destruct (enc_encode E (Datatypes.S fuel) s bb e) as [[s2 b2] [sz|k| |]];
        try (do 4 eexists; split; [reflexivity|]; split; [reflexivity|apply SR]).
      destruct (sz =? 0); [do 4 eexists; split; [reflexivity|]; split; [reflexivity|apply SR]|].
      apply IH; auto; lia.
  - intros fuel it xs it' Y EX L. cbn [enc_start repeat_iter_encoder repeat_encoder]. rewrite ID.
    destruct H as [HS H]. destruct (repeat_idle b) eqn:IB.
    + do 3 eexists. split; [reflexivity|]. split; [reflexivity|]. split; auto. cbn. eauto.
    + do 3 eexists. split; [reflexivity|]. split; [reflexivity|]. split; auto.
Qed.
Print Assumptions C82_as_list.

(** ** An item that is refused is gone, and the next call goes on with the one after it; but the bytes that the
    same call had put into the buffer before are lost, although their items count as written. *)
Theorem C82_refused : forall S I T (E : Encoder S I) (next : T -> option I * T) s s' it i it1 k fuel buf e,
  enc_idle E s = true -> next it = (Some i, it1) -> enc_start E (Datatypes.S fuel) s i = (s', Err k) ->
  enc_encode (repeat_iter_encoder E next) (Datatypes.S fuel) (mkRepeatIter s (Some it)) buf e
    = (mkRepeatIter s' (Some it1), buf, Err k).
Proof. intros S I T E next s s' it i it1 k fuel buf e ID NX ST. cbn [enc_encode repeat_iter_encoder iter_loop ri_inner ri_items iter_pull]. now rewrite ID, NX, ST. Qed.
Print Assumptions C82_refused.

(** Iterators for the examples: a list, counting up for ever, the same item for ever. *)
Definition list_next {I} (l : list I) : option I * list I := match l with [] => (None, []) | i :: l => (Some i, l) end.
Definition count_next (n : N) : option N * N := (Some (N.modulo n 65536), (n + 1)%N).
Definition const_next {I} (i : I) (u : unit) : option I * unit := (Some i, u).

Theorem C82_refused_loses_bytes_refuted :
  let E := repeat_iter_encoder U24beEncoder list_next in
  enc_trace E (repeat_iter_new num_enc_new)
    [OpStart 9 [7; 16777216; 9]%N; OpEncode 9 (repeat x00 3) Unknown; OpEIdle; OpEncode 9 (repeat x00 4) Unknown; OpEIdle]
  = [ObStart (Ok tt); ObEncode [x00; x00; x07] (Err InvalidInput); ObEIdle false;
     ObEncode [x00; x00; x09; x00] (Ok 3); ObEIdle true].
Proof. reflexivity. Qed.
Print Assumptions C82_refused_loses_bytes_refuted.

(** ** Items without bytes: over an endless iterator of them [encode] does not return. *)
Theorem C82_empty_items_refuted : forall fuel buf e,
  snd (enc_encode (repeat_iter_encoder (optional_encoder U8Encoder) (const_next None)) fuel
         (mkRepeatIter num_enc_new (Some tt)) buf e) = OutOfFuel.
Proof.
  intros fuel buf e. destruct fuel as [|fuel]; [reflexivity|].
  cbn [enc_encode repeat_iter_encoder iter_loop ri_inner ri_items].
  assert (H : forall n f, iter_pull (optional_encoder U8Encoder) (const_next None) n f num_enc_new (Some tt)
                = IPullFail num_enc_new (Some tt) OutOfFuel) by (induction n; intros; cbn; auto).
  now rewrite H.
Qed.
Print Assumptions C82_empty_items_refuted.

(** ** The hypotheses are met: 16-bit numbers counting up for ever, for any buffers. *)
Example C82_count_example : forall bufs, exists f0, forall fuel, f0 + room bufs < fuel ->
  exists st st' out,
    enc_start (repeat_iter_encoder U16beEncoder count_next) fuel (repeat_iter_new num_enc_new) 0%N = (st, Ok tt) /\
    drain (repeat_iter_encoder U16beEncoder count_next) fuel st [] bufs = (st', out, Ok tt) /\
    enc_idle (repeat_iter_encoder U16beEncoder count_next) st' = false /\ length out = room bufs /\
    exists xs it' ws rest, yields count_next 0%N xs it' /\ Forall2 (fun w n => num_bytes NU16be n w) ws xs /\
      concat ws = out ++ rest.
Proof.
  intros bufs. apply (C82_endless (E := U16beEncoder) (P := @bytes_eidle (list byte))).
  - exact (@unum_rests NU16be).
  - exact (@unum_enc NU16be).
  - intros w i H ->. exact (Props_Writes.num_cons H).
  - reflexivity.
  - intros n. enough (G : forall n k, exists xs it', length xs = n /\ yields count_next k xs it') by apply G.
    clear. induction n as [|n IH]; intros k; [exists [], k; split; auto; constructor|].
    destruct (IH (k + 1)%N) as (xs & it' & L & Y). exists ((k mod 65536)%N :: xs), it'.
    split; [cbn; congruence|]. econstructor; [reflexivity|exact Y].
  - intros xs it' Y. induction Y; constructor; auto. unfold count_next in H. injection H as <- _.
    apply (@Props_Num.digits_total NU16be). apply N.mod_lt. discriminate.
Qed.
(** After buffers that end with an item, one item more has been taken from the iterator than is written. *)
Example C82_ahead_example : exists s,
  drain (repeat_iter_encoder U16beEncoder count_next) 99 (mkRepeatIter num_enc_new (Some 0%N)) []
    [repeat x00 2; repeat x00 2] = (mkRepeatIter s (Some 3%N), [x00; x00; x00; x01], Ok tt) /\
  enc_idle U16beEncoder s = false.
Proof. eexists. split; vm_compute; reflexivity. Qed.
Lemma list_yields : forall I (l : list I), yields list_next l l [].
Proof. induction l; econstructor; eauto. reflexivity. Qed.
Example C82_list_example : forall I (s : NumEnc) (l : list I),
  same_repeat list_next (Datatypes.S (length l)) (mkRepeatIter s (Some l)) (mkRepeat s (Some l)).
Proof. intros. split; auto. cbn. split; [lia|]. exists []. split; [apply list_yields|reflexivity]. Qed.
