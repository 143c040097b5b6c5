(** * Theorems for C79: settings changed, and wrappers taken off, in mid-item. *)
From Verif Require Import Midway DecComb2 Drive EncComb EncComb2 SliceProofs ObserveProofs.
From Verif Require Import Props_Comb Props_Seq.
Set Implicit Arguments.

Lemma partway_intro : forall S I (D : Decoder S I) m (P : S -> Prop) R (Q : S -> list byte -> Prop) i,
  step_ok D m P R -> (forall s w, R s w i -> w <> [] -> dec_idle D s = false -> Q s w) ->
  forall s w, R s w i -> partway D m s w Q.
Proof.
  intros S I D m P R Q i SO HQ s w H fuel sched extra.
  revert s w H. induction sched as [|[k h] sched IH]; intros s w H MX L F O.
  - cbn in *. assert (NE : w <> []) by (intros ->; cbn in O; lia).
    assert (id : dec_idle D s = false).
    { destruct (dec_idle D s) eqn:id; auto. destruct (so_idle SO H id) as (-> & _). congruence. }
    exists s. cbn. auto.
  - cbn [offered fold_right fst] in O. fold (offered sched) in O.
    assert (id : dec_idle D s = false).
    { destruct (dec_idle D s) eqn:id; auto. destruct (so_idle SO H id) as (-> & _). cbn in O. lia. }
    assert (NE : skipn k w <> []).
    { intros X. apply (f_equal (@length byte)) in X. rewrite skipn_length in X. cbn in X. lia. }
    assert (E1 : firstn k (w ++ extra) = firstn k w).
    { rewrite firstn_app. replace (k - length w) with 0 by lia. cbn. apply app_nil_r. }
    assert (E2 : skipn k (w ++ extra) = skipn k w ++ extra).
    { rewrite skipn_app. replace (k - length w) with 0 by lia. reflexivity. }
    assert (L1 : length (firstn k w) = k) by (rewrite firstn_length; lia).
    assert (T : truthful m (firstn k w) (skipn k w ++ extra) (hint_eos h (skipn k w ++ extra))).
    { destruct m.
      - apply hint_truthful_sd. rewrite <- len_app, app_assoc, firstn_skipn. auto.
      - destruct MX as [-> N]; [congruence|]. inversion N; subst. apply hint_truthful; auto.
        rewrite <- len_app, app_assoc, firstn_skipn. auto.
      - destruct MX as [-> N]; [congruence|]. inversion N; subst. apply hint_truthful; auto.
        rewrite <- len_app, app_assoc, firstn_skipn. auto. }
    rewrite (split_at k w) in H.
    destruct (so_more SO (fuel := fuel) H id NE ltac:(intros X; apply (proj1 (MX X))) T) as (s1 & X1 & id1 & H1).
    { rewrite app_length in F. lia. }
    destruct (IH s1 (skipn k w) H1) as (s' & Y1 & Y2 & Y3).
    { intros X. destruct (MX X) as [A B]. split; auto. inversion B; auto. }
    { rewrite len_app in *. unfold len in *. rewrite skipn_length. lia. }
    { rewrite app_length in *. rewrite skipn_length. lia. }
    { rewrite skipn_length. lia. }
    exists s'. cbn [feed offered fold_right fst]. fold (offered sched).
    rewrite id, E1, E2, X1, L1, E2, Y1, skipn_skipn. rewrite skipn_skipn in Y3.
    replace (k + offered sched) with (offered sched + k) by lia. auto.
Qed.

Lemma epartway_intro : forall S I (E : Encoder S I) f0 (P : S -> Prop) R (Q : S -> list byte -> Prop),
  estep_ok E f0 P R -> (forall s w, R s w -> w <> [] -> enc_idle E s = false -> Q s w) ->
  forall s w, R s w -> epartway E s w Q.
Proof.
  intros S I E f0 P R Q SO HQ s w H. exists f0. intros fuel bufs.
  revert s w H. induction bufs as [|b bufs IH]; intros s w H out F O.
  - cbn in *. assert (NE : w <> []) by (intros ->; cbn in O; lia).
    assert (id : enc_idle E s = false).
    { destruct (enc_idle E s) eqn:id; auto. destruct (eo_idle SO H id) as (-> & _). congruence. }
    exists s. cbn. rewrite app_nil_r. auto.
  - cbn [room fold_right] in O, F. fold (room bufs) in O, F.
    assert (id : enc_idle E s = false).
    { destruct (enc_idle E s) eqn:id; auto. destruct (eo_idle SO H id) as (-> & _). cbn in O. lia. }
    assert (NE : skipn (length b) w <> []).
    { intros X. apply (f_equal (@length byte)) in X. rewrite skipn_length in X. cbn in X. lia. }
    assert (L1 : length (firstn (length b) w) = length b) by (rewrite firstn_length; lia).
    rewrite (split_at (length b) w) in H.
    destruct (eo_more SO (fuel := fuel) (e := eos_new false) H id L1 NE eq_refl) as (s1 & X1 & id1 & H1).
    { lia. }
    destruct (IH s1 (skipn (length b) w) H1 (out ++ firstn (length b) w)) as (s' & Y1 & Y2 & Y3).
    { lia. } { rewrite skipn_length. lia. }
    exists s'. cbn [drain room fold_right]. fold (room bufs).
    rewrite id, X1. rewrite (firstn_all2 (firstn (length b) w)) by lia. rewrite Y1.
    rewrite skipn_skipn in Y3. replace (length b + room bufs) with (room bufs + length b) by lia.
    split; auto. f_equal. f_equal. rewrite <- app_assoc. f_equal.
    rewrite (split_at (length b) w) at 3. rewrite firstn_app, L1.
    rewrite (firstn_all2 (firstn (length b) w)) by lia.
    replace (room bufs + length b - length b) with (room bufs) by lia. reflexivity.
Qed.

(** ** Wrappers taken off in mid-item: [into_inner] (or [inner_mut]) gives a decoder that goes on. *)
Theorem C79_unwrap_length : forall S I (D : Decoder S I) m (Post : S -> Prop) s w i,
  parses D m Post s w i ->
  partway (length_decoder D) SD (length_new s (len w)) w (fun st rest =>
    delivers D m (ln_inner st) rest i Post /\ ln_remaining st = len rest).
Proof.
  intros S I D m Post s w i H.
  eapply partway_intro with (i := i); [apply (length_step D m Post w)| |].
  - intros st w' (H' & E & _) NE id. split; auto. now apply parses_delivers.
  - repeat split; auto.
Qed.
Print Assumptions C79_unwrap_length.

Theorem C79_unwrap_peekable : forall S I (D : Decoder S I) m (Post : S -> Prop) s w i,
  parses D m Post s w i -> w <> [] ->
  partway (peek_decoder D) m (peek_new s) w (fun st rest =>
    delivers D m (pk_inner st) rest i Post /\ pk_item st = None).
Proof.
  intros S I D m Post s w i H NE0.
  eapply partway_intro with (i := i); [apply (peek_step D m Post)| |].
  - intros [a [j|]] w' H' NE id; cbn in *; [discriminate|]. destruct H' as (_ & H').
    split; auto. now apply parses_delivers.
  - cbn. split; auto. destruct (dec_idle D s) eqn:id; auto.
    destruct (parses_idle H id) as (-> & _). congruence.
Qed.
Print Assumptions C79_unwrap_peekable.

Theorem C79_unwrap_maybe_eos : forall S I (D : Decoder S I) m (Post : S -> Prop) s w i,
  parses D m Post s w i -> w <> [] ->
  partway (maybe_decoder D) m (maybe_new s) w (fun st rest => delivers D m (my_inner st) rest i Post).
Proof.
  intros S I D m Post s w i H NE0.
  eapply partway_intro with (i := i); [apply (maybe_step D m Post)| |].
  - intros st w' (H' & _) NE id. now apply parses_delivers.
  - split; [exact H|]. intros; congruence.
Qed.
Print Assumptions C79_unwrap_maybe_eos.

(** [slice()], suspended or not. *)
Theorem C79_unwrap_slice : forall S I (D : Decoder S I) (Post : S -> Prop) s w i fuel sched extra n,
  parses D SD Post s w i -> (n <= len w)%N ->
  (len (w ++ extra) <= u64_max)%N -> length (w ++ extra) < fuel ->
  exists st k, feed (slice_decoder D) fuel (slice_set (slice_new s) n) (w ++ extra) sched
                 = (st, skipn k w ++ extra, Ok tt) /\
    k = min (offered sched) (N.to_nat n) /\
    delivers D SD (sl_inner st) (skipn k w) i Post.
Proof.
  intros S I D Post s w i fuel sched extra n H LN L F.
  rewrite <- (app_nil_r w) in H.
  destruct (@feed_slice S I D Post fuel sched s n w [] extra i H (or_intror eq_refl) (Nat.le_0_l _) L F)
    as (s' & X & Y & _).
  rewrite app_nil_r in Y.
  replace (Nat.min (offered sched) (Nat.min (N.to_nat n) (length w)))
    with (Nat.min (offered sched) (N.to_nat n)) in * by (unfold len in LN; lia).
  eexists _, _. split; [rewrite skipn_app in X|].
  - replace (Nat.min (offered sched) (N.to_nat n) - length w) with 0 in X by (unfold len in LN; lia). exact X.
  - split; auto. cbn. now apply parses_delivers.
Qed.
Print Assumptions C79_unwrap_slice.

(** ** [do_omit] in mid-item *)
Theorem C79_omit : forall S I (D : Decoder S I) m (Post : S -> Prop) s w i,
  parses D m Post s w i ->
  partway (omit_decoder D) m (mkOmit s false) w (fun st rest =>
    (** taken off, the inner decoder goes on *)
    delivers D m (om_inner st) rest i Post /\
    (** with the item omitted it is over at once, without an item and without input *)
    (let st1 := omit_set st true in
     dec_idle (omit_decoder D) st1 = true /\
     dec_finish (omit_decoder D) st1 = (st1, Ok None) /\
     (forall fuel buf e, dec_decode (omit_decoder D) fuel st1 buf e = (st1, Ok 0)) /\
     (** wanted again, it goes on where it was *)
     delivers (omit_decoder D) m (omit_set st1 false) rest (Some i)
       (fun st2 => om_omit st2 = false /\ Post (om_inner st2)))).
Proof.
  intros S I D m Post s w i H.
  eapply partway_intro with (i := Some i); [apply (omit_step D m Post)| |].
  - intros st w' (E & j & [= <-] & H') NE id. split; [now apply parses_delivers|].
    repeat split; auto. apply parses_delivers.
    exact (omit_false_parses H').
  - unfold omit_R. cbn. eauto.
Qed.
Print Assumptions C79_omit.

(** ** [set_max_bytes] in mid-item: the bytes of the item consumed so far count. *)
Theorem C79_max_bytes : forall S I (D : Decoder S I) m (Post : S -> Prop) s w i mx,
  m <> SD -> parses D m Post s w i -> (len w <= mx <= u64_max)%N ->
  partway (max_decoder D) m (max_new s mx) w (fun st rest =>
    delivers D m (mx_inner st) rest i Post /\
    (mx_consumed st + len rest = len w)%N /\
    forall n, (n <= u64_max)%N ->
      ((n < mx_consumed st)%N -> max_set st n = (st, Err InvalidInput)) /\
      ((mx_consumed st <= n)%N -> exists st1, max_set st n = (st1, Ok tt) /\
        ((len w <= n)%N -> delivers (max_decoder D) m st1 rest i
            (fun st2 => Post (mx_inner st2) /\ mx_consumed st2 = 0%N /\ mx_max st2 = n)) /\
        ((n < len w)%N -> forall fuel e, e = Unknown \/ e = Finite 0 ->
            exists st2, dec_decode (max_decoder D) fuel st1 rest e = (st2, Err InvalidInput)))).
Proof.
  intros S I D m Post s w i mx NSD H LM.
  eapply partway_intro with (i := i); [exact (@max_step S I D m Post mx (len w) NSD LM)| |].
  2:{ repeat split; auto. }
  intros [a c x] rest (H' & E & Ex) NE id. cbn in H', E, Ex. subst x. cbn [mx_inner mx_consumed].
  split; [now apply parses_delivers|]. split; auto. intros n LN. unfold max_set. cbn [mx_consumed mx_inner].
  split.
  - intros LT. replace (c <=? n)%N with false by lia. reflexivity.
  - intros LE. replace (c <=? n)%N with true by lia. eexists. split; [reflexivity|]. split.
    + intros LW. apply parses_delivers. exists (max_R D m Post n (len w)).
      split; [apply max_step; auto; lia|]. repeat split; auto.
    + intros LW fuel e He. cbn. unfold max_decode, max_check. cbn [mx_max mx_consumed mx_inner].
      rewrite u64_sub_ok by lia.
      destruct He as [-> | ->]; cbn [remaining_bytes].
      * replace (len rest <=? n - c)%N with false by lia. eauto.
      * rewrite u64_add_ok by lia. replace (len rest + 0 <=? n - c)%N with false by lia. eauto.
Qed.
Print Assumptions C79_max_bytes.

(** ** [set_remaining_items] between calls: the items decoded so far are kept, and the item that
    has begun is the first of those still to come.  [is] are items encoded one after the other; of
    these bytes some have been offered to [collectn(n0)], whatever [n0] was. *)
Section CollN.
  Context {S I : Type} (D : Decoder S I) (fmt : format I) (P : S -> Prop)
          (DEC : decodes D SD fmt P P) (NEF : forall w i, fmt w i -> w <> []).

  Lemma collectn_loop_mid : forall rem fuel s acc pre b w' extra e st' n is,
    coll_at D fmt P s (b ++ w') is -> truthful SD b (w' ++ extra) e -> length b < fuel ->
    collectn_loop D fuel rem s acc (length pre) (pre ++ b) e = (st', Ok n) ->
    exists j, j <= length is /\ j <= rem /\ cn_items st' = acc ++ firstn j is /\
      cn_remaining st' = rem - j /\ length pre <= n <= length (pre ++ b) /\
      coll_at D fmt P (cn_inner st') (skipn (n - length pre) b ++ w') (skipn j is).
  Proof.
    induction rem as [|rem IH]; intros fuel s acc pre b w' extra e st' n is C T F X.
    { cbn in X. injection X as <- <-. exists 0. cbn. rewrite Nat.sub_diag, app_nil_r, app_length.
      cbn. repeat split; auto; lia. }
    cbn [collectn_loop] in X.
    destruct b as [|x b0].
    { rewrite app_nil_r in X. rewrite Nat.ltb_irrefl in X. cbn [Nat.eqb negb andb] in X.
      destruct (is_reached e); [discriminate|]. injection X as <- <-.
      exists 0. cbn. rewrite Nat.sub_diag, !app_nil_r. cbn. repeat split; auto; lia. }
    set (b := x :: b0) in *.
    replace (length pre <? length (pre ++ b)) with true in X
      by (rewrite app_length; unfold b; cbn [length]; lia).
    assert (NEi : is <> []).
    { eapply (coll_nonnil (D := D) (fmt := fmt) (P := P)); [exact C|unfold b; discriminate]. }
    destruct (coll_mid (D := D) DEC NEF C NEi) as (w1 & w2 & i1 & is2 & E & -> & NE1 & H & SQ).
    pose proof (mid_not_idle NE1 H) as id.
    unfold try_decode in X. rewrite id, slice_from_app in X.
    destruct (app_cases _ _ _ _ (eq_sym E)) as [(w1' & -> & -> & NE')|(b1 & Eb & ->)].
    - rewrite <- app_assoc in T.
      destruct (parses_more H id NE' ltac:(congruence) T F) as (s' & E1 & id' & H').
      rewrite E1, id' in X. injection X as <- <-.
      exists 0. cbn [cn_items cn_remaining cn_inner firstn skipn]. rewrite app_nil_r, app_length.
      repeat split; auto; try lia.
      rewrite (skipn_all2 b) by (unfold b; cbn [length]; lia). cbn [app].
      right. exists w1', w2, i1, is2. auto 6.
    - rewrite Eb in *.
      destruct (parses_last H id ltac:(congruence) T F) as (s' & E1 & id' & H').
      cbn in id'. rewrite E1, id' in X. destruct (parses_idle H' id') as (_ & _ & s'' & E2 & PP).
      rewrite E2 in X. rewrite app_length in F.
      replace (length pre + length w1) with (length (pre ++ w1)) in X by (now rewrite app_length).
      rewrite app_assoc in X.
      assert (C2 : coll_at D fmt P s'' (b1 ++ w') is2) by (left; auto).
      assert (T2 : truthful SD b1 (w' ++ extra) e) by (eapply truthful_shrink; eauto).
      destruct (IH fuel s'' (acc ++ [i1]) (pre ++ w1) b1 w' extra e st' n is2 C2 T2 ltac:(lia) X)
        as (j & J1 & J2 & J3 & J4 & J5 & J6).
      exists (Datatypes.S j). cbn [length firstn skipn]. rewrite !app_length in *.
      repeat split; try lia; auto.
      + rewrite J3, <- app_assoc. reflexivity.
      + rewrite skipn_app, skipn_all2 by lia. cbn [app].
        replace (n - length pre - length w1) with (n - (length pre + length w1)) by lia. exact J6.
  Qed.

  Lemma feed_collectn_mid : forall fuel extra sched st w is st1 rest,
    coll_at D fmt P (cn_inner st) w is ->
    offered sched <= length w -> (len (w ++ extra) <= u64_max)%N -> length (w ++ extra) < fuel ->
    feed (collectn_decoder D) fuel st (w ++ extra) sched = (st1, rest, Ok tt) ->
    exists j w1, j <= length is /\ j <= cn_remaining st /\ cn_items st1 = cn_items st ++ firstn j is /\
      cn_remaining st1 = cn_remaining st - j /\ rest = w1 ++ extra /\ length w1 <= length w /\
      coll_at D fmt P (cn_inner st1) w1 (skipn j is).
  Proof.
    intros fuel extra. induction sched as [|[k h] sched IH]; intros st w is st1 rest C O L F X.
    { cbn in X. injection X as <- <-. exists 0, w. cbn. rewrite app_nil_r, Nat.sub_0_r.
      repeat split; auto; lia. }
    cbn [feed] in X. cbn [offered fold_right fst] in O. fold (offered sched) in O.
    destruct (dec_idle (collectn_decoder D) st) eqn:id.
    { injection X as <- <-. exists 0, w. cbn. rewrite app_nil_r, Nat.sub_0_r. repeat split; auto; lia. }
    assert (E1 : firstn k (w ++ extra) = firstn k w).
    { rewrite firstn_app. replace (k - length w) with 0 by lia. cbn. apply app_nil_r. }
    assert (E2 : skipn k (w ++ extra) = skipn k w ++ extra).
    { rewrite skipn_app. replace (k - length w) with 0 by lia. reflexivity. }
    rewrite E1, E2 in X.
    assert (T : truthful SD (firstn k w) (skipn k w ++ extra) (hint_eos h (skipn k w ++ extra))).
    { apply hint_truthful_sd. rewrite <- len_app, app_assoc, firstn_skipn. auto. }
    destruct (dec_decode (collectn_decoder D) fuel st (firstn k w) (hint_eos h (skipn k w ++ extra)))
      as [st2 r] eqn:Y.
    destruct r as [n| | |]; try discriminate.
    cbn [dec_decode collectn_decoder] in Y.
    rewrite (split_at k w) in C.
    assert (F1 : length (firstn k w) < fuel) by (rewrite app_length in F; rewrite firstn_length; lia).
    destruct (@collectn_loop_mid (cn_remaining st) fuel (cn_inner st) (cn_items st) [] (firstn k w) (skipn k w) extra _ st2 n is C T F1 Y) as (j & J1 & J2 & J3 & J4 & J5 & J6).
    cbn [app length] in J5, J6. rewrite Nat.sub_0_r in J6. rewrite firstn_length in J5.
    assert (E3 : skipn n (w ++ extra) = (skipn n (firstn k w) ++ skipn k w) ++ extra).
    { rewrite skipn_app. replace (n - length w) with 0 by lia. cbn [skipn]. f_equal.
      rewrite (split_at k w) at 1. rewrite skipn_app. rewrite firstn_length.
      replace (n - Nat.min k (length w)) with 0 by lia. reflexivity. }
    rewrite E3 in X.
    assert (L3 : length (skipn n (firstn k w) ++ skipn k w) = length w - n).
    { rewrite app_length, !skipn_length, firstn_length. lia. }
    apply (IH st2 _ (skipn j is)) in X; auto.
    2:{ lia. }
    2:{ rewrite (len_app _ extra). rewrite len_app in L. unfold len in *. rewrite L3. lia. }
    2:{ rewrite (app_length _ extra). rewrite app_length in F. lia. }
    destruct X as (j2 & w1 & K1 & K2 & K3 & K4 & K5 & K6 & K7).
    rewrite skipn_length in K1.
    exists (j + j2), w1. repeat split; auto; try lia.
    - rewrite K3, J3, <- app_assoc. f_equal.
      rewrite <- (firstn_skipn j is) at 3. rewrite firstn_app, firstn_firstn, firstn_length.
      replace (Nat.min (j + j2) j) with j by lia.
      replace (j + j2 - Nat.min j (length is)) with j2 by lia. reflexivity.
    - rewrite skipn_skipn in K7. replace (j + j2) with (j2 + j) by lia. exact K7.
  Qed.
End CollN.

Theorem C79_collectn : forall S I (D : Decoder S I) (fmt : format I) (P : S -> Prop) s ws is n0
    fuel sched extra st rest,
  decodes D SD fmt P P -> (forall w i, fmt w i -> w <> []) -> P s ->
  Forall2 fmt ws is -> (len (concat ws) <= isize_max)%N ->
  (len (concat ws ++ extra) <= u64_max)%N -> length (concat ws ++ extra) < fuel ->
  offered sched <= length (concat ws) ->
  feed (collectn_decoder D) fuel (collectn_new s n0) (concat ws ++ extra) sched = (st, rest, Ok tt) ->
  exists k w,
    (** [k] items have been decoded, and [w] of the encoded items is still to come *)
    k <= length is /\ cn_remaining st + k = n0 /\ rest = w ++ extra /\
    delivers (collectn_decoder D) SD (collectn_set st (length is - k)) w is
      (fun st' => exists s', st' = collectn_new s' 0 /\ P s').
Proof.
  intros S I D fmt P s ws is n0 fuel sched extra st rest DEC NEF Ps F2 LI L F O X.
  assert (C : coll_at D fmt P (cn_inner (collectn_new (I := I) s n0)) (concat ws) is).
  { left. split; auto. exists ws; auto. }
  destruct (feed_collectn_mid DEC NEF extra sched _ C O L F X) as (j & w1 & J1 & J2 & J3 & J4 & J5 & J6 & J7).
  cbn in J2, J3, J4. exists j, w1. repeat split; auto; try lia.
  apply parses_delivers.
  eapply parses_post; [|exists (collectn_R D fmt P); split; [apply collectn_step; auto|]].
  { intros [a b c] (A & B & E). cbn in *. subst. exists a. split; auto. }
  split; [unfold len in *; lia|]. cbn [collectn_set cn_remaining cn_items cn_inner].
  exists (skipn j is). rewrite skipn_length. repeat split; auto.
  rewrite J3. apply firstn_skipn.
Qed.
Print Assumptions C79_collectn.

(** ** [set_expected_byte] between calls: the bytes to come are compared with the new value, those
    before are not looked at again, and a padding that has ended stays ended. *)
Theorem C79_padding : forall st b,
  (dec_idle pad_decoder st = false ->
    (forall w, (len w <= isize_max)%N -> (forall c, b = Some c -> Forall (fun x => x = c) w) ->
       delivers pad_decoder ToEos (pad_dec_set st b) w tt (fun st' => st' = pad_dec_new b)) /\
    (forall c fuel buf e, b = Some c -> ~ Forall (fun x => x = c) buf ->
       exists st', dec_decode pad_decoder fuel (pad_dec_set st b) buf e = (st', Err InvalidInput))) /\
  (dec_idle pad_decoder st = true ->
    dec_idle pad_decoder (pad_dec_set st b) = true /\
    dec_finish pad_decoder (pad_dec_set st b) = (pad_dec_new b, Ok tt)).
Proof.
  intros [x eo] b. cbn. split.
  - intros ->. split.
    + intros w L F. apply parses_delivers. apply (@pad_decodes b); [reflexivity|]. split; auto.
    + intros c fuel buf e -> NF. cbn. unfold pad_decode. cbn.
      destruct (forallb _ buf) eqn:FB; [apply forallb_eqb in FB; tauto|]. eauto.
  - intros ->. auto.
Qed.
Print Assumptions C79_padding.

(** ** [set_bytes], whatever the decoder was doing: the new container is filled from its start. *)
Theorem C79_set_bytes : forall B (BX : ByteBox B) st b w,
  box_ok BX -> length w = length (bx_ref BX b) -> (len w <= isize_max)%N ->
  delivers (bytes_decoder BX) SD (bytes_dec_set st b) w (bx_put BX b w)
    (fun st' => bd_bytes st' = None).
Proof.
  intros B BX st b w OK L LI. apply parses_delivers.
  eapply bytes_decodes with (b0 := b); auto; [unfold len in *; rewrite <- L; auto|split; reflexivity|].
  split; auto.
Qed.
Print Assumptions C79_set_bytes.

(** ** Encoders taken out of their wrapper in mid-item output the rest *)
Theorem C79_unwrap_length_encoder : forall S I (E : Encoder S I) (fmt : format I) (P : S -> Prop) s i w,
  rests E P -> encodes E fmt P P -> P s -> fmt w i -> w <> [] ->
  exists f0, forall fuel, f0 <= fuel ->
  exists st, enc_start (length_encoder E) fuel (length_new s (len w)) i = (st, Ok tt) /\
    epartway (length_encoder E) st w (fun st' rest =>
      outputs E (ln_inner st') rest P /\ ln_remaining st' = len rest).
Proof.
  intros S I E fmt P s i w RS ENC Ps Fm NE. destruct (ENC w i Fm) as (f0 & A). exists f0.
  intros fuel F. destruct (A s Ps fuel F) as (s1 & X1 & X2).
  exists (mkLength s1 (len w) (len w)). split.
  - cbn. rewrite N.eqb_refl, X1. reflexivity.
  - eapply epartway_intro; [apply (elength_step E f0 P (len w))| |].
    + intros st w' (H & R & _) _ _. split; auto. eapply emits_outputs; eauto.
    + repeat split; auto; congruence.
Qed.
Print Assumptions C79_unwrap_length_encoder.

Theorem C79_max_bytes_encoder : forall S I (E : Encoder S I) (fmt : format I) (P : S -> Prop) s i w mx,
  encodes E fmt P P -> P s -> fmt w i -> (len w <= mx <= u64_max)%N ->
  exists f0, forall fuel, f0 <= fuel ->
  exists st, enc_start (max_encoder E) fuel (max_new s mx) i = (st, Ok tt) /\
    epartway (max_encoder E) st w (fun st' rest =>
      outputs E (mx_inner st') rest P /\
      (mx_consumed st' + len rest = len w)%N /\
      forall n, (n <= u64_max)%N ->
        ((n < mx_consumed st')%N -> max_set st' n = (st', Err InvalidInput)) /\
        ((mx_consumed st' <= n)%N -> exists st1, max_set st' n = (st1, Ok tt) /\
          ((len w <= n)%N -> outputs (max_encoder E) st1 rest
             (fun st2 => P (mx_inner st2) /\ mx_consumed st2 = 0%N /\ mx_max st2 = n)) /\
          ((n < len w)%N -> exists f1, forall fuel buf e,
             length rest <= length buf -> f1 + length buf < fuel ->
             exists st2 buf', enc_encode (max_encoder E) fuel st1 buf e = (st2, buf', Err InvalidInput)))).
Proof.
  intros S I E fmt P s i w mx ENC Ps Fm LM. destruct (ENC w i Fm) as (f0 & A). exists f0.
  intros fuel F. destruct (A s Ps fuel F) as (s1 & X1 & X2).
  exists (mkMax s1 0 mx). split.
  { cbn. rewrite X1. reflexivity. }
  eapply epartway_intro; [exact (@emax_step S I E f0 P mx (len w) LM)| |].
  2:{ repeat split; auto. }
  intros [a c x] rest (H & R & Ex & _) NE id. cbn in H, R, Ex, id. subst x. specialize (R id).
  cbn [mx_inner mx_consumed]. split; [eapply emits_outputs; eauto|]. split; auto.
  intros n LN. unfold max_set. cbn [mx_consumed mx_inner]. split.
  - intros LT. replace (c <=? n)%N with false by lia. reflexivity.
  - intros LE. replace (c <=? n)%N with true by lia. eexists. split; [reflexivity|]. split.
    + intros LW. apply emits_outputs with (f0 := f0). exists (emax_R E f0 P n (len w)).
      split; [apply emax_step; lia|]. repeat split; auto. cbn. congruence.
    + intros LW. exists f0. intros fuel' buf e LB F'.
      destruct (emits_last e H id LB F') as (s' & Y1 & id' & H').
      cbn. unfold max_encode. cbn [mx_inner mx_consumed mx_max]. rewrite Y1.
      rewrite u64_add_ok by (unfold len in *; lia).
      replace (c + N.of_nat (length rest) <=? n)%N with false by (unfold len in *; lia). eauto.
Qed.
Print Assumptions C79_max_bytes_encoder.

Lemma ex_two_mid : parses (copy_decoder vec_box) SD ex_two_ready ex_two_new [x01; x02] [x01; x02].
Proof. apply ex_two_parses. Qed.
(** An inner decoder of each kind, an item that can be interrupted, and for [collectn] a stream of
    three items interrupted in the second one, with [n0] too large and corrected. *)
Example C79_example :
  parses ex_two SD ex_two_ready ex_two_new [x01; x02] [x01; x02] /\
  parses rem_decoder ToEos (fun s => s = rem_dec_new) rem_dec_new [x01; x02; x03] [x01; x02; x03] /\
  (exists st, feed (collectn_decoder ex_two) 99 (collectn_new ex_two_new 7)
      ([x01; x02] ++ [x03; x04] ++ [x05; x06] ++ [x07]) [(3, HUnknown)]
      = (st, [x04; x05; x06; x07], Ok tt) /\ cn_remaining st = 6 /\
    exists st', feed (collectn_decoder ex_two) 99 (collectn_set st 2) [x04; x05; x06; x07] [(4, HUnknown)]
      = (st', [x07], Ok tt) /\
    snd (dec_finish (collectn_decoder ex_two) st') = Ok [[x01; x02]; [x03; x04]; [x05; x06]]).
Proof.
  split; [apply ex_two_parses|]. split.
  - apply rem_decodes; [reflexivity|]. split; [reflexivity|discriminate].
  - eexists. split; [vm_compute; reflexivity|]. split; [reflexivity|].
    eexists. split; vm_compute; reflexivity.
Qed.
(** [set_remaining_items(0)] in mid-item: the collection ends at once, the item that has begun stays
    in the inner decoder and is the first of the next collection. *)
Example C79_collectn_zero : exists st,
  feed (collectn_decoder ex_two) 99 (collectn_new ex_two_new 2) [x01; x02; x03] [(3, HUnknown)]
    = (st, [], Ok tt) /\
  exists st1, dec_finish (collectn_decoder ex_two) (collectn_set st 0) = (st1, Ok [[x01; x02]]) /\
  exists st2, feed (collectn_decoder ex_two) 99 (collectn_set st1 1) [x04; x05] [(2, HUnknown)] = (st2, [x05], Ok tt) /\
    snd (dec_finish (collectn_decoder ex_two) st2) = Ok [[x03; x04]].
Proof.
  eexists. split; [vm_compute; reflexivity|]. eexists. split; [vm_compute; reflexivity|].
  eexists. split; vm_compute; reflexivity.
Qed.
Example C79_encoder_example : exists st,
  enc_start (max_encoder (bytes_encoder vec_box)) 99 (max_new bytes_enc_new 9) [x01; x02; x03] = (st, Ok tt) /\
  exists st1, drain (max_encoder (bytes_encoder vec_box)) 99 st [] [[x00; x00]] = (st1, [x01; x02], Ok tt) /\
  mx_consumed st1 = 2%N /\ snd (max_set st1 1) = Err InvalidInput /\
  exists b, snd (enc_encode (max_encoder (bytes_encoder vec_box)) 99 (fst (max_set st1 2)) [x00] Unknown) = b /\
    b = Err InvalidInput.
Proof.
  eexists. split; [reflexivity|]. eexists. split; [reflexivity|]. split; [reflexivity|].
  split; [reflexivity|]. eexists. split; reflexivity.
Qed.
