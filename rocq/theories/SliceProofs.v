(** * Slices and demultiplexing: proofs. *)
From Verif Require Export SliceSpec Drive UniverseProofs Honest.
Set Implicit Arguments.

Lemma firstn_min : forall A k (l : list A), firstn (Nat.min (length l) k) l = firstn k l.
Proof.
  intros A k l. destruct (le_lt_dec k (length l)).
  - now rewrite Nat.min_r.
  - rewrite Nat.min_l, !firstn_all2 by lia. reflexivity.
Qed.
(** The buffer and the hint that reach the inner decoder are those of a call that offers
    [min k c] bytes. *)
Lemma slice_call : forall S I (D : Decoder S I) fuel s c k h (input : list byte),
  (len input <= u64_max)%N ->
  let kk := Nat.min k (N.to_nat c) in
  slice_decode D fuel (mkSlice s c) (firstn k input) (hint_eos h (skipn k input)) =
  let '(s', r) := dec_decode D fuel s (firstn kk input) (hint_eos h (skipn kk input)) in
  match r with
  | Ok size => match u64_sub c (N.of_nat size) with
               | Some c' => (mkSlice s' c', Ok size)
               | None => (mkSlice s' c, Panic) end
  | r' => (mkSlice s' c, r')
  end.
Proof.
  intros S I D fuel s c k h input L kk. unfold slice_decode; cbn [sl_inner sl_consumable].
  set (limit := N.min (len (firstn k input)) c).
  assert (E1 : firstn (N.to_nat limit) (firstn k input) = firstn kk input).
  { rewrite firstn_firstn. unfold limit, kk, len. rewrite firstn_length.
    rewrite <- (firstn_min (Nat.min (N.to_nat _) k)). rewrite <- (firstn_min (Nat.min k _)). f_equal. lia. }
  assert (E2 : eos_back (hint_eos h (skipn k input)) (len (firstn k input) - limit)
               = Some (hint_eos h (skipn kk input))).
  { destruct h; cbn; auto. unfold u64_add.
    assert (X : (len (skipn k input) + (len (firstn k input) - limit))%N = len (skipn kk input)).
    { unfold limit, kk, len in *. rewrite !firstn_length, !skipn_length. lia. }
    rewrite X. destruct (N.leb_spec (len (skipn kk input)) u64_max) as [|G]; auto.
    unfold len in *. rewrite skipn_length in G. lia. }
  rewrite E1, E2. reflexivity.
Qed.

Lemma feed_slice : forall S I (D : Decoder S I) (P : S -> Prop) fuel sched s c p w' rest i,
  parses D SD P s (p ++ w') i ->
  (c <= len p)%N \/ w' = [] -> length w' <= length rest ->
  (len (p ++ rest) <= u64_max)%N -> length (p ++ rest) < fuel ->
  let n := Nat.min (offered sched) (Nat.min (N.to_nat c) (length p)) in
  exists s', feed (slice_decoder D) fuel (mkSlice s c) (p ++ rest) sched
             = (mkSlice s' (c - N.of_nat n), skipn n (p ++ rest), Ok tt) /\
    parses D SD P s' (skipn n (p ++ w')) i /\
    (0 < n -> length (p ++ w') <= n -> dec_idle D s' = true).
Proof.
  intros S I D P fuel. induction sched as [|[k h] sched IH]; intros s c p w' rest i H CC LR L F.
  - cbn. rewrite N.sub_0_r. exists s; repeat split; auto. lia.
  - cbn [feed offered fold_right fst dec_idle slice_decoder sl_inner]. fold (offered sched).
    destruct (dec_idle D s) eqn:id.
    { destruct (parses_idle H id) as (E & _). destruct p; [|discriminate]. cbn in E. subst w'.
      cbn [length]. rewrite !Nat.min_0_r. cbn. rewrite N.sub_0_r. exists s; repeat split; auto. }
    cbn [dec_decode slice_decoder]. rewrite slice_call by auto. set (kk := Nat.min k (N.to_nat c)).
    cbn zeta.
    destruct (le_lt_dec (length (p ++ w')) kk) as [K|K].
    + assert (w' = []).
      { destruct CC as [CC|]; auto. destruct w'; auto. rewrite app_length in K. cbn [length] in K.
        unfold len in CC. lia. }
      subst w'. rewrite app_nil_r in *.
      assert (E1 : firstn kk (p ++ rest) = p ++ firstn (kk - length p) rest).
      { rewrite firstn_app, firstn_all2 by lia. reflexivity. }
      assert (E2 : skipn kk (p ++ rest) = skipn (kk - length p) rest).
      { rewrite skipn_app, skipn_all2 by lia. reflexivity. }
      assert (T : truthful SD (p ++ firstn (kk - length p) rest) (skipn (kk - length p) rest)
                      (hint_eos h (skipn kk (p ++ rest)))).
      { rewrite E2. apply hint_truthful_sd. rewrite <- len_app, <- app_assoc, firstn_skipn. auto. }
      destruct (parses_last H id ltac:(congruence) T (fuel := fuel)) as (s1 & X1 & id1 & H1).
      { rewrite !app_length in *. rewrite firstn_length. lia. }
      rewrite E1, X1. cbn in id1. unfold u64_sub.
      destruct (N.leb_spec (N.of_nat (length p)) c); [|lia].
      rewrite feed_idle by auto. exists s1.
      replace (Nat.min (k + offered sched) (Nat.min (N.to_nat c) (length p))) with (length p) by lia.
      rewrite skipn_all. auto.
    + assert (KP : kk <= length p).
      { destruct CC as [CC| ->]; [unfold len in CC; lia|]. rewrite app_nil_r in K. lia. }
      assert (E1 : firstn kk (p ++ rest) = firstn kk p).
      { rewrite firstn_app. replace (kk - length p) with 0 by lia. cbn. now rewrite app_nil_r. }
      assert (E2 : skipn kk (p ++ rest) = skipn kk p ++ rest).
      { rewrite skipn_app. replace (kk - length p) with 0 by lia. reflexivity. }
      rewrite (split_at kk p), <- app_assoc in H.
      assert (NE : skipn kk p ++ w' <> []).
      { intros X. apply (f_equal (@length byte)) in X. rewrite !app_length, skipn_length in *. cbn in X. lia. }
      assert (T : truthful SD (firstn kk p) ((skipn kk p ++ w') ++ skipn (length w') rest)
                      (hint_eos h (skipn kk (p ++ rest)))).
      { rewrite E2. destruct h; cbn; [left|right; left|right; right]; auto. split.
        - f_equal. unfold len. rewrite !app_length, !skipn_length. lia.
        - unfold len in *. rewrite !app_length, !skipn_length, firstn_length in *. lia. }
      assert (FL : length (firstn kk p) = kk) by (rewrite firstn_length; lia).
      destruct (parses_more H id NE ltac:(congruence) T (fuel := fuel)) as (s1 & X1 & id1 & H1).
      { rewrite !app_length in *. lia. }
      rewrite E1, X1, FL. unfold u64_sub.
      destruct (N.leb_spec (N.of_nat kk) c); [|lia]. rewrite E2.
      destruct (IH s1 (c - N.of_nat kk)%N (skipn kk p) w' rest i H1) as (s' & Y1 & Y2 & Y3); auto.
      { destruct CC as [CC|]; auto. left. unfold len in *. rewrite skipn_length. lia. }
      { unfold len in *. rewrite !app_length, ?skipn_length in *. lia. }
      { rewrite !app_length, ?skipn_length in *. lia. }
      set (m := Nat.min (offered sched) (Nat.min (N.to_nat (c - N.of_nat kk)) (length (skipn kk p)))) in *.
      rewrite Y1. exists s'.
      assert (NM : Nat.min (k + offered sched) (Nat.min (N.to_nat c) (length p)) = kk + m).
      { unfold m, kk. rewrite skipn_length. lia. }
      rewrite NM. split; [|split].
      * f_equal; f_equal; [f_equal; lia|]. rewrite <- E2, skipn_skipn. f_equal. lia.
      * replace (skipn (kk + m) (p ++ w')) with (skipn m (skipn kk p ++ w')); auto.
        rewrite (Nat.add_comm kk m), <- (skipn_skipn m kk). f_equal. rewrite skipn_app. replace (kk - length p) with 0 by lia. reflexivity.
      * intros Z LE. apply Y3; rewrite !app_length, ?skipn_length in *; lia.
Qed.

(** Budgets in sequence, on one stream. *)
Lemma feed_slices_sd : forall S I (D : Decoder S I) (P : S -> Prop) fuel extra i rounds st w,
  parses D SD P (sl_inner st) w i ->
  (len (w ++ extra) <= u64_max)%N -> length (w ++ extra) < fuel ->
  exists s' c, feed_slices D fuel st (w ++ extra) rounds
             = (mkSlice s' c, skipn (Nat.min (length w) (allowed rounds)) (w ++ extra), Ok tt) /\
    parses D SD P s' (skipn (allowed rounds) w) i /\
    (length w <= allowed rounds -> w <> [] -> dec_idle D s' = true).
Proof.
  intros S I D P fuel extra i. induction rounds as [|[b sched] rounds IH]; intros [s c0] w H L F.
  - cbn. rewrite Nat.min_0_r. exists s, c0. repeat split; auto. destruct w; cbn; [congruence|lia].
  - cbn [feed_slices allowed fold_right fst snd]. fold (allowed rounds). cbn [slice_set sl_inner] in *.
    unfold slice_set; cbn [sl_inner].
    rewrite <- (app_nil_r w) in H.
    destruct (@feed_slice _ _ D P fuel sched s b w [] extra i H (or_intror eq_refl) ltac:(cbn; lia) L F)
      as (s1 & X1 & X2 & X3). rewrite X1. rewrite app_nil_r in *.
    set (n := Nat.min (offered sched) (Nat.min (N.to_nat b) (length w))) in *.
    assert (E : skipn n (w ++ extra) = skipn n w ++ extra).
    { rewrite skipn_app. replace (n - length w) with 0 by lia. reflexivity. }
    rewrite E.
    destruct (IH (mkSlice s1 (b - N.of_nat n)) (skipn n w)) as (s' & c & Y1 & Y2 & Y3).
    { exact X2. }
    { unfold len in *. rewrite app_length, skipn_length in *. lia. }
    { rewrite app_length, skipn_length in *. lia. }
    exists s', c. rewrite Y1, skipn_length. split; [|split].
    + do 2 f_equal. rewrite <- E, skipn_skipn. f_equal. lia.
    + rewrite skipn_skipn in Y2. destruct (le_lt_dec (length w) n).
      * rewrite skipn_all2 in Y2 |- * by lia. auto.
      * replace (Nat.min (N.to_nat b) (offered sched) + allowed rounds) with (allowed rounds + n) by lia. auto.
    + intros A NE. destruct (le_lt_dec (length w) n).
      * assert (0 < n) by (destruct w; [congruence|cbn in *; lia]).
        pose proof (X3 ltac:(auto) ltac:(lia)) as ID.
        assert (Z : feed_slices D fuel (mkSlice s1 (b - N.of_nat n)) (skipn n w ++ extra) rounds
                    = (mkSlice s1 (match rev rounds with [] => b - N.of_nat n | (b',_) :: _ => b' end)%N,
                       skipn n w ++ extra, Ok tt)).
        { clear -ID. generalize (b - N.of_nat n)%N as c. induction rounds as [|[b' sc] r IH]; intros c; cbn; auto.
          rewrite feed_idle by auto. unfold slice_set; cbn. rewrite IH.
          destruct (rev r) as [|[]]; cbn; auto. }
        rewrite Z in Y1. now injection Y1 as <- _.
      * apply Y3; [rewrite skipn_length; lia|]. intros X. apply (f_equal (@length byte)) in X.
        rewrite skipn_length in X. cbn in X. lia.
Qed.

(** ** Encoders *)
Lemma drain_slice : forall S I (E : Encoder S I) f0 (P : S -> Prop) fuel bufs s c w out,
  emits E f0 P s w -> f0 + room bufs < fuel ->
  let n := Nat.min (room bufs) (Nat.min (N.to_nat c) (length w)) in
  exists s', drain (slice_encoder E) fuel (mkSlice s c) out bufs
             = (mkSlice s' (c - N.of_nat n), out ++ firstn n w, Ok tt) /\
    emits E f0 P s' (skipn n w) /\
    (0 < n -> length w <= n -> enc_idle E s' = true).
Proof.
  intros S I E f0 P fuel. induction bufs as [|b bufs IH]; intros s c w out H F.
  - cbn. rewrite N.sub_0_r, app_nil_r. exists s; repeat split; auto. lia.
  - cbn [drain room fold_right enc_idle slice_encoder sl_inner] in *. fold (room bufs) in *.
    destruct (enc_idle E s) eqn:id.
    { destruct (emits_idle H id) as (-> & _). cbn [length]. rewrite !Nat.min_0_r. cbn.
      rewrite N.sub_0_r, app_nil_r. exists s; repeat split; auto. }
    cbn [enc_encode slice_encoder]. unfold slice_encode; cbn [sl_inner sl_consumable].
    set (limit := N.to_nat (N.min (len b) c)).
    assert (LB : limit = Nat.min (length b) (N.to_nat c)) by (unfold limit, len; lia).
    clearbody limit. cbn [eos_new eos_back].
    assert (FL : length (firstn limit b) = limit) by (rewrite firstn_length; lia).
    destruct (le_lt_dec (length w) limit) as [K|K].
    + destruct (emits_last (fuel := fuel) (buf := firstn limit b) Unknown H id) as (s1 & X1 & id1 & H1);
        [lia|lia|].
      rewrite X1. unfold u64_sub. destruct (N.leb_spec (N.of_nat (length w)) c); [|lia].
      rewrite drain_idle by auto. exists s1.
      replace (Nat.min (length b + room bufs) (Nat.min (N.to_nat c) (length w))) with (length w) by lia.
      rewrite skipn_all. split; [|split]; auto.
      rewrite <- !app_assoc, firstn_app, Nat.sub_diag, firstn_O, app_nil_r, firstn_all. reflexivity.
    + rewrite <- (firstn_skipn limit w) in H.
      assert (NE : skipn limit w <> []).
      { intros X. apply (f_equal (@length byte)) in X. rewrite skipn_length in X. cbn in X. lia. }
      assert (FW : length (firstn limit w) = limit) by (rewrite firstn_length; lia).
      destruct (emits_more (fuel := fuel) (buf := firstn limit b) (e := Unknown) H id) as (s1 & X1 & id1 & H1);
        [lia|auto|reflexivity|lia|].
      rewrite X1, FL. unfold u64_sub. destruct (N.leb_spec (N.of_nat limit) c); [|lia].
      rewrite firstn_app, FW, Nat.sub_diag, firstn_O, app_nil_r.
      rewrite (firstn_all2 (firstn limit w)) by lia.
      destruct (IH s1 (c - N.of_nat limit)%N (skipn limit w) (out ++ firstn limit w) H1) as (s' & Y1 & Y2 & Y3);
        [lia|].
      set (m := Nat.min (room bufs) (Nat.min (N.to_nat (c - N.of_nat limit)) (length (skipn limit w)))) in *.
      rewrite Y1. exists s'.
      assert (NM : Nat.min (length b + room bufs) (Nat.min (N.to_nat c) (length w)) = limit + m).
      { unfold m. rewrite skipn_length. lia. }
      rewrite NM. split; [|split].
      * f_equal; f_equal; [f_equal; lia|]. rewrite <- app_assoc. f_equal.
        clearbody m. clear. revert w m. induction limit; intros [|x w] m; cbn; auto.
        -- now rewrite firstn_nil.
        -- now rewrite IHlimit.
      * rewrite skipn_skipn in Y2. now rewrite Nat.add_comm.
      * intros Z LE. apply Y3; rewrite ?skipn_length in *; lia.
Qed.
Lemma drain_slices_ok : forall S I (E : Encoder S I) f0 (P : S -> Prop) fuel rounds st w out,
  emits E f0 P (sl_inner st) w ->
  Forall (fun r => f0 + room (snd r) < fuel) rounds ->
  exists s' c, drain_slices E fuel st out rounds
             = (mkSlice s' c, out ++ firstn (allowed_out rounds) w, Ok tt) /\
    emits E f0 P s' (skipn (allowed_out rounds) w) /\
    (length w <= allowed_out rounds -> w <> [] -> enc_idle E s' = true).
Proof.
  intros S I E f0 P fuel. induction rounds as [|[b bufs] rounds IH]; intros [s c0] w out H F.
  - cbn. rewrite app_nil_r. exists s, c0. repeat split; auto. destruct w; cbn; [congruence|lia].
  - inversion F as [|? ? F1 F2]; subst. cbn in F1.
    cbn [drain_slices allowed_out fold_right fst snd]. fold (allowed_out rounds).
    unfold slice_set; cbn [sl_inner] in *.
    destruct (@drain_slice _ _ E f0 P fuel bufs s b w out H F1) as (s1 & X1 & X2 & X3). rewrite X1.
    set (n := Nat.min (room bufs) (Nat.min (N.to_nat b) (length w))) in *.
    destruct (IH (mkSlice s1 (b - N.of_nat n)) (skipn n w) (out ++ firstn n w)) as (s' & c & Y1 & Y2 & Y3); auto.
    assert (FN : firstn (Nat.min (N.to_nat b) (room bufs) + allowed_out rounds) w
                 = firstn n w ++ firstn (allowed_out rounds) (skipn n w)).
    { rewrite <- (firstn_skipn n w) at 1. rewrite firstn_app.
      rewrite (firstn_all2 (firstn n w)) by (rewrite firstn_length; lia).
      f_equal. rewrite firstn_length.
      destruct (le_lt_dec (length w) n); [rewrite (skipn_all2 w) by lia; now rewrite !firstn_nil|]. f_equal. lia. }
    exists s', c. rewrite Y1, FN, app_assoc. split; auto. split.
    + rewrite skipn_skipn in Y2. destruct (le_lt_dec (length w) n).
      * rewrite skipn_all2 in Y2 |- * by lia. auto.
      * replace (Nat.min (N.to_nat b) (room bufs) + allowed_out rounds) with (allowed_out rounds + n) by lia. auto.
    + intros A NE. destruct (le_lt_dec (length w) n).
      * assert (0 < n) by (destruct w; [congruence|cbn in *; lia]).
        pose proof (X3 ltac:(auto) ltac:(lia)) as ID.
        assert (Z : forall o c, drain_slices E fuel (mkSlice s1 c) o rounds
                    = (mkSlice s1 (match rev rounds with [] => c | (b',_) :: _ => b' end)%N, o, Ok tt)).
        { clear -ID. induction rounds as [|[b' sc] r IH]; intros o c; cbn; auto.
          rewrite drain_idle by auto. unfold slice_set; cbn. rewrite IH.
          destruct (rev r) as [|[]]; cbn; auto. }
        rewrite Z in Y1. now injection Y1 as <- _.
      * apply Y3; [rewrite skipn_length; lia|]. intros X. apply (f_equal (@length byte)) in X.
        rewrite skipn_length in X. cbn in X. lia.
Qed.

(** ** Every run of a sliced decoder is a run of the inner decoder with smaller buffers *)
Lemma feed_app : forall S I (D : Decoder S I) fuel s1 s2 s input t rest,
  feed D fuel s input s1 = (t, rest, Ok tt) ->
  feed D fuel s input (s1 ++ s2) = feed D fuel t rest s2.
Proof.
  intros S I D fuel. induction s1 as [|[k h] s1 IH]; intros s2 s input t rest; cbn.
  - now intros [= <- <-].
  - destruct (dec_idle D s) eqn:id.
    + intros [= <- <-]. now rewrite feed_idle.
    + destruct (dec_decode D fuel s _ _) as [s' [n| | |]]; try discriminate. apply IH.
Qed.
Lemma len_skipn : forall n (l : list byte) m, (len l <= m)%N -> (len (skipn n l) <= m)%N.
Proof. intros n l m. unfold len. rewrite skipn_length. lia. Qed.
Lemma feed_slice_sim : forall S I (D : Decoder S I) fuel sched s c input st' rest r,
  honest D -> (len input <= u64_max)%N ->
  feed (slice_decoder D) fuel (mkSlice s c) input sched = (st', rest, r) ->
  exists sched', feed D fuel s input sched' = (sl_inner st', rest, r) /\
    incl (map snd sched') (map snd sched) /\ offered sched' <= offered sched.
Proof.
  intros S I D fuel. induction sched as [|[k h] sched IH]; intros s c input st' rest r HD L; cbn [feed].
  - intros [= <- <- <-]. exists []. repeat split; auto. intros x [].
  - cbn [dec_idle slice_decoder sl_inner]. destruct (dec_idle D s) eqn:id.
    { intros [= <- <- <-]. exists []. repeat split; [intros x []|cbn; lia]. }
    cbn [dec_decode slice_decoder]. rewrite slice_call by auto. cbn zeta. set (kk := Nat.min k (N.to_nat c)).
    destruct (dec_decode D fuel s (firstn kk input) _) as [s1 x] eqn:E.
    destruct x as [n| | |].
    2-4: intros [= <- <- <-]; exists [(kk, h)]; cbn; rewrite id, E; repeat split; [intros ? [<-|[]]; now left|lia].
    pose proof (HD _ _ _ _ _ _ E) as LN. rewrite firstn_length in LN.
    unfold u64_sub. destruct (N.leb_spec (N.of_nat n) c); [|lia]. intros F.
    destruct (IH s1 (c - N.of_nat n)%N (skipn n input) st' rest r HD (len_skipn _ _ L) F) as (sched' & A & B & C).
    exists ((kk, h) :: sched'). cbn. rewrite id, E. fold (offered sched) (offered sched'). repeat split; auto; [|lia].
    intros y [<-|Y]; [now left|right; auto].
Qed.
Lemma feed_slices_sim : forall S I (D : Decoder S I) fuel rounds st input st' rest r,
  honest D -> (len input <= u64_max)%N ->
  feed_slices D fuel st input rounds = (st', rest, r) ->
  exists sched', feed D fuel (sl_inner st) input sched' = (sl_inner st', rest, r) /\
    incl (map snd sched') (concat (map (fun x => map snd (snd x)) rounds)).
Proof.
  intros S I D fuel. induction rounds as [|[b sched] rounds IH]; intros [s c] input st' rest r HD L; cbn [feed_slices].
  - intros [= <- <- <-]. exists []. split; auto. intros x [].
  - unfold slice_set; cbn [sl_inner].
    destruct (feed (slice_decoder D) fuel (mkSlice s b) input sched) as [[st1 in1] r1] eqn:E.
    destruct (@feed_slice_sim _ _ D fuel sched s b input st1 in1 r1 HD L E) as (sc1 & A & B & _).
    destruct r1 as [u| | |].
    2-4: intros [= <- <- <-]; exists sc1; split; auto; intros x X; cbn; apply in_or_app; auto.
    destruct u. intros F.
    assert (L1 : (len in1 <= u64_max)%N).
    { clear -A L. revert s input A L. induction sc1 as [|[k h] sc1 IH]; intros s input; cbn.
      - now intros [= _ <-].
      - destruct (dec_idle D s); [now intros [= _ <-]|].
        destruct (dec_decode D fuel s _ _) as [s' [n| | |]]; try discriminate.
        intros A L. eapply IH; eauto. now apply len_skipn. }
    destruct (IH st1 in1 st' rest r HD L1 F) as (sc2 & A2 & B2).
    exists (sc1 ++ sc2). split.
    + rewrite (@feed_app _ _ D fuel sc1 sc2 s input _ _ A). exact A2.
    + rewrite map_app. cbn. apply incl_app; [apply incl_appl|apply incl_appr]; auto.
Qed.

(** ** Demultiplexing *)
Lemma skipn_exact : forall A (p l : list A), skipn (length p) (p ++ l) = l.
Proof. intros. rewrite skipn_app, skipn_all, Nat.sub_diag. reflexivity. Qed.
Section Demux.
Context {S0 I0 S1 I1 Sh : Type} (D0 : Decoder S0 I0) (D1 : Decoder S1 I1) (H : Decoder Sh (bool * N)).
Variables (header : format (bool * N)) (Pre : Sh -> Prop) (P0 : S0 -> Prop) (P1 : S1 -> Prop).
Hypothesis HH : decodes H SD header Pre Pre.

Lemma bytes_le : forall b segs stream plan, muxed header segs stream plan -> length (bytes_for b segs) <= length stream.
Proof.
  intros b segs stream plan M. induction M; cbn; auto. fold (bytes_for b segs).
  rewrite !app_length. destruct (Bool.eqb who b); cbn; lia.
Qed.

Lemma demux_ok : forall i0 i1 extra fuel segs stream plan, muxed header segs stream plan ->
  forall h st0 st1,
  Pre h ->
  parses D0 SD P0 (sl_inner st0) (bytes_for false segs) i0 ->
  parses D1 SD P1 (sl_inner st1) (bytes_for true segs) i1 ->
  (len (stream ++ extra) <= u64_max)%N -> length (stream ++ extra) < fuel ->
  exists h' st0' st1',
    demux D0 D1 H fuel h st0 st1 (stream ++ extra) plan = (h', st0', st1', extra, Ok tt) /\
    Pre h' /\ parses D0 SD P0 (sl_inner st0') [] i0 /\ parses D1 SD P1 (sl_inner st1') [] i1 /\
    (bytes_for false segs <> [] \/ dec_idle D0 (sl_inner st0) = true -> dec_idle D0 (sl_inner st0') = true) /\
    (bytes_for true segs <> [] \/ dec_idle D1 (sl_inner st1) = true -> dec_idle D1 (sl_inner st1') = true).
Proof.
  intros i0 i1 extra fuel segs stream plan M.
  induction M as [|who p segs h0 rest hs ps plan HD NH LH LP M IH]; intros h [s0 c0] [s1 c1] Ph H0 H1 L F.
  - cbn in *. exists h, (mkSlice s0 c0), (mkSlice s1 c1). repeat split; auto; intros [X|X]; auto; now destruct X.
  - cbn [demux].
    assert (A : (h0 ++ p ++ rest) ++ extra = h0 ++ (p ++ rest ++ extra)) by (now rewrite <- !app_assoc).
    rewrite A in *. clear A.
    destruct (feed_sd (fuel := fuel) hs (p ++ rest ++ extra) (HH Ph HD) L F) as (h1 & X1 & X2 & X3).
    rewrite Nat.min_l in X1 by lia. rewrite skipn_app, skipn_all, Nat.sub_diag in X1. cbn [app skipn] in X1.
    rewrite X1.
    assert (idh : dec_idle H h1 = true) by (apply X3; auto).
    destruct (parses_idle X2 idh) as (_ & _ & h2 & X4 & Ph2). rewrite X4.
    assert (L' : (len (p ++ rest ++ extra) <= u64_max)%N) by (rewrite len_app in L; lia).
    assert (F' : length (p ++ rest ++ extra) < fuel) by (rewrite app_length in F; lia).
    assert (L2 : (len (rest ++ extra) <= u64_max)%N) by (rewrite len_app in L'; lia).
    assert (F2 : length (rest ++ extra) < fuel) by (rewrite app_length in F'; lia).
    assert (NP : forall Dummy : Prop, Nat.min (offered ps) (Nat.min (N.to_nat (len p)) (length p)) = length p).
    { intros _. unfold len. lia. }
    specialize (NP True).
    pose proof (bytes_le false M) as B0. pose proof (bytes_le true M) as B1.
    destruct who; cbn [bytes_for map concat fst snd Bool.eqb app] in H0, H1 |- *; fold (bytes_for true segs) (bytes_for false segs) in *;
      unfold slice_set; cbn [sl_inner] in *.
    + destruct (@feed_slice _ _ D1 P1 fuel ps s1 (len p) p _ (rest ++ extra) i1 H1 (or_introl (N.le_refl _))) as (t1 & Y1 & Y2 & Y3);
        [rewrite app_length; lia|auto|auto|].
      rewrite NP in *. rewrite Y1. rewrite !skipn_exact in *.
      destruct (IH h2 (mkSlice s0 c0) (mkSlice t1 (len p - N.of_nat (length p))) Ph2 H0 Y2 L2 F2)
        as (h' & st0' & st1' & Z1 & Z2 & Z3 & Z4 & Z5 & Z6).
      rewrite Z1. exists h', st0', st1'. repeat split; auto.
      cbn [sl_inner] in *. intros Q. apply Z6. destruct Q as [Q|Q].
      * destruct (bytes_for true segs) eqn:BF; [right|left; discriminate].
        rewrite app_nil_r in *. apply Y3; [destruct p; [congruence|cbn; lia]|lia].
      * destruct (parses_idle H1 Q) as (EE & _). destruct p; [|discriminate]. cbn in EE.
        rewrite feed_idle in Y1 by auto. injection Y1 as <-. auto.
    + destruct (@feed_slice _ _ D0 P0 fuel ps s0 (len p) p _ (rest ++ extra) i0 H0 (or_introl (N.le_refl _))) as (t0 & Y1 & Y2 & Y3);
        [rewrite app_length; lia|auto|auto|].
      rewrite NP in *. rewrite Y1. rewrite !skipn_exact in *.
      destruct (IH h2 (mkSlice t0 (len p - N.of_nat (length p))) (mkSlice s1 c1) Ph2 Y2 H1 L2 F2)
        as (h' & st0' & st1' & Z1 & Z2 & Z3 & Z4 & Z5 & Z6).
      rewrite Z1. exists h', st0', st1'. repeat split; auto.
      cbn [sl_inner] in *. intros Q. apply Z5. destruct Q as [Q|Q].
      * destruct (bytes_for false segs) eqn:BF; [right|left; discriminate].
        rewrite app_nil_r in *. apply Y3; [destruct p; [congruence|cbn; lia]|lia].
      * destruct (parses_idle H0 Q) as (EE & _). destruct p; [|discriminate]. cbn in EE.
        rewrite feed_idle in Y1 by auto. injection Y1 as <-. auto.
Qed.
End Demux.
