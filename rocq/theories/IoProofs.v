(** * Buffered I/O: lemmas. *)
From Verif Require Export IoSpec.
From Verif Require Import Lib DecPrim.
Set Implicit Arguments.

(** ** Indices *)
Lemma stretch_length : forall inner h t, t <= length inner -> length (stretch inner h t) = t - h.
Proof. intros. unfold stretch. rewrite firstn_length, skipn_length. lia. Qed.

Lemma stretch_nil : forall inner h, stretch inner h h = [].
Proof. intros. unfold stretch. rewrite Nat.sub_diag. reflexivity. Qed.

Lemma stretch_pop : forall inner h t n, n <= t - h ->
  stretch inner (h + n) t = skipn n (stretch inner h t).
Proof.
  intros. unfold stretch. rewrite skipn_firstn_comm, skipn_skipn.
  f_equal; [lia | f_equal; lia].
Qed.

Lemma stretch_push : forall inner h t data, h <= t -> t + length data <= length inner ->
  stretch (overwrite inner t data) h (t + length data) = stretch inner h t ++ data.
Proof.
  intros inner h t data H L. unfold stretch, overwrite.
  assert (A : length (firstn t inner) = t) by (rewrite firstn_length; lia).
  rewrite skipn_app, A. replace (h - t) with 0 by lia. cbn [skipn].
  replace (t + length data - h) with (length (skipn h (firstn t inner)) + length data)
    by (rewrite skipn_length, A; lia).
  rewrite firstn_app_2. f_equal.
  - rewrite skipn_firstn_comm. reflexivity.
  - rewrite firstn_app, firstn_all, Nat.sub_diag. cbn [firstn]. apply app_nil_r.
Qed.

Lemma stretch_tail : forall inner h t d, h <= t -> t <= length inner ->
  stretch (firstn t inner ++ d) h (t + 0) = stretch inner h t.
Proof.
  intros. rewrite Nat.add_0_r. unfold stretch.
  assert (A : length (firstn t inner) = t) by (rewrite firstn_length; lia).
  rewrite skipn_app, A. replace (h - t) with 0 by lia. cbn [skipn].
  rewrite firstn_app, skipn_length, A, Nat.sub_diag. cbn [firstn].
  rewrite app_nil_r, skipn_firstn_comm, firstn_firstn, Nat.min_id. reflexivity.
Qed.

Lemma stretch_tail_push : forall inner h t d n, h <= t -> t <= length inner -> n <= length d ->
  stretch (firstn t inner ++ d) h (t + n) = stretch inner h t ++ firstn n d.
Proof.
  intros inner h t d n H L N. unfold stretch.
  assert (A : length (firstn t inner) = t) by (rewrite firstn_length; lia).
  rewrite skipn_app, A. replace (h - t) with 0 by lia. cbn [skipn].
  replace (t + n - h) with (length (skipn h (firstn t inner)) + n)
    by (rewrite skipn_length, A; lia).
  rewrite firstn_app_2. f_equal. rewrite skipn_firstn_comm. reflexivity.
Qed.

Lemma indices_le : forall inner h t, indices_ok inner h t -> h <= t.
Proof. intros inner h t [L [H|[-> ->]]]; lia. Qed.

Lemma window_some : forall inner h t, indices_ok inner h t ->
  window inner h t = Some (stretch inner h t).
Proof.
  intros inner h t H. pose proof (indices_le H). destruct H as [L _]. unfold window.
  apply Nat.leb_le in H0. apply Nat.leb_le in L. rewrite H0, L. reflexivity.
Qed.

Lemma content_empty : forall inner h t, indices_ok inner h t ->
  (t =? 0) = true <-> stretch inner h t = [].
Proof.
  intros inner h t [L H]. split; intro X.
  - apply Nat.eqb_eq in X. subst t. unfold stretch. reflexivity.
  - pose proof (stretch_length inner h L) as B. rewrite X in B. cbn in B.
    apply Nat.eqb_eq. destruct H as [H|[-> ->]]; lia.
Qed.

(** ** Readers and writers *)
Lemma rd_read_data : forall r k r' o, rd_read r k = (r', o) ->
  rd_data r = match o with inl d => d | inr _ => [] end ++ rd_data r' /\
  (forall d, o = inl d -> length d <= k).
Proof.
  intros [data plan] k r' o H. unfold rd_read in H. cbn [rd_plan rd_data] in H.
  destruct plan as [|[n| |e] p]; inversion H; subst; clear H; cbn [rd_data app].
  - split. symmetry; apply firstn_skipn. intros d E. inversion E. rewrite firstn_length. lia.
  - split. symmetry; apply firstn_skipn. intros d E. inversion E. rewrite firstn_length. lia.
  - split. reflexivity. intros d E. inversion E. cbn; lia.
  - split. reflexivity. intros d E. discriminate E.
Qed.

Lemma reading_data : forall r k d r', reading r k d r' -> rd_data r = d ++ rd_data r'.
Proof.
  induction 1 as [|r room x data r1 more r' H R IH]. reflexivity.
  destruct (rd_read_data _ _ H) as [E _]. rewrite E, IH, app_assoc. reflexivity.
Qed.

Lemma reading_length : forall r k d r', reading r k d r' -> length d <= k.
Proof.
  induction 1 as [|r room x data r1 more r' H R IH]. cbn; lia.
  destruct (rd_read_data _ _ H) as [_ E]. specialize (E _ eq_refl). rewrite app_length. lia.
Qed.

Lemma wr_write_data : forall w d w' o, wr_write w d = (w', o) ->
  match o with
  | inl n => n <= length d /\ wr_data w' = wr_data w ++ firstn n d
  | inr _ => wr_data w' = wr_data w
  end.
Proof.
  intros [data plan] d w' o H. unfold wr_write in H. cbn [wr_plan wr_data] in H.
  destruct plan as [|[n| |e] p]; inversion H; subst; clear H; cbn [wr_data].
  - rewrite firstn_all. auto.
  - split; [lia|reflexivity].
  - cbn [firstn]. rewrite app_nil_r. split; [lia|reflexivity].
  - reflexivity.
Qed.

Lemma writing_data : forall w d rest w', writing w d rest w' ->
  wr_data w' ++ rest = wr_data w ++ d /\ length rest <= length d.
Proof.
  induction 1 as [|w data n w1 rest w' H W [IH IL]]. split; [reflexivity|lia].
  pose proof (wr_write_data _ _ H) as [L E]. rewrite skipn_length in IL. split; [|lia].
  rewrite IH, E, <- app_assoc. f_equal. apply firstn_skipn.
Qed.

(** ** [fill] *)
Definition fill_outcome (b : ReadBuf) (r : Reader) (b' : ReadBuf) (r' : Reader) (x : res unit) : Prop :=
  exists data r1,
    reading r (rb_capacity b - rb_tail b) data r1 /\
    rb_ok b' /\ rb_capacity b' = rb_capacity b /\ rb_content b' = rb_content b ++ data /\
    rb_tail b' = rb_tail b + length data /\
    (length data = rb_capacity b - rb_tail b /\ r' = r1 /\ x = Ok tt /\
       rb_state b' = match data with [] => rb_state b | _ => StNormal end \/
     length data < rb_capacity b - rb_tail b /\
       exists o e, rd_read r1 (rb_capacity b - rb_tail b - length data) = (r', o) /\
         end_of_read o = Some e /\ x = ending_result e /\ rb_state b' = ending_state e).

Lemma fill_loop_spec : forall fuel b r b' r' x,
  rb_ok b -> rb_capacity b - rb_tail b < fuel ->
  rb_fill_loop fuel b r = (b', r', x) -> fill_outcome b r b' r' x.
Proof.
  induction fuel as [|fuel IH]; intros b r b' r' x OK F H. lia.
  cbn [rb_fill_loop] in H. pose proof OK as [L HT]. pose proof (indices_le OK) as LE.
  destruct (rb_is_full b) eqn:Full; unfold rb_is_full in Full.
  - inversion H; subst; clear H. apply Nat.eqb_eq in Full.
    exists [], r'. split; [constructor|]. split; [exact OK|].
    rewrite app_nil_r. cbn [length]. unfold rb_capacity. repeat split; try lia.
    left. repeat split; lia.
  - apply Nat.eqb_neq in Full. rewrite usize_sub_ok in H by exact L.
    change (length (rb_inner b)) with (rb_capacity b) in *.
    destruct (rd_read r (rb_capacity b - rb_tail b)) as [r1 o] eqn:R.
    assert (Stop : forall e st, end_of_read o = Some e -> b' = rb_set_state b st -> r' = r1 ->
              st = ending_state e -> x = ending_result e -> fill_outcome b r b' r' x).
    { intros e st E -> -> -> ->. exists [], r. split; [constructor|]. split; [exact OK|].
      rewrite app_nil_r. cbn [length]. rewrite Nat.add_0_r, Nat.sub_0_r.
      unfold rb_content, rb_capacity. cbn [rb_set_state rb_inner rb_head rb_tail rb_state].
      repeat split. right. split; [unfold rb_capacity in *; lia|]. exists o, e. auto. }
    destruct o as [[|y l]|ioe].
    + inversion H; subst; clear H. eapply Stop; reflexivity.
    + destruct (rd_read_data _ _ R) as [_ LD]. specialize (LD _ eq_refl).
      set (data := y :: l) in *.
      set (b1 := mkReadBuf (overwrite (rb_inner b) (rb_tail b) data) (rb_head b)
                   (rb_tail b + length data) StNormal) in *.
      assert (CL : rb_capacity b1 = rb_capacity b).
      { unfold rb_capacity, b1. cbn [rb_inner]. apply overwrite_length.
        unfold rb_capacity in *. lia. }
      assert (OK1 : rb_ok b1).
      { unfold rb_ok, indices_ok. change (length (rb_inner b1)) with (rb_capacity b1).
        rewrite CL. cbn [b1 rb_tail rb_head]. unfold data; cbn [length].
        unfold data in LD; cbn [length] in LD. lia. }
      assert (CN : rb_content b1 = rb_content b ++ data).
      { unfold rb_content, b1. cbn [rb_inner rb_head rb_tail]. apply stretch_push; [lia|].
        unfold rb_capacity in *. lia. }
      apply IH in H; [|exact OK1|rewrite CL; cbn [b1 rb_tail]; unfold data; cbn [length]; lia].
      destruct H as (d2 & r2 & RD & OK' & C' & N' & T' & Cases).
      rewrite CL in *. cbn [b1 rb_tail] in *.
      exists (data ++ d2), r2. split.
      { unfold data. econstructor. exact R. fold data.
        replace (rb_capacity b - rb_tail b - length data)
          with (rb_capacity b - (rb_tail b + length data)) by lia. exact RD. }
      split; [exact OK'|]. split; [exact C'|]. rewrite N', CN, app_assoc. split; [reflexivity|].
      rewrite app_length. split; [lia|].
      pose proof (reading_length RD).
      destruct Cases as [(X1 & X2 & X3 & X4)|(X1 & o & e & X2 & X3 & X4 & X5)].
      * left. repeat split; try assumption; try lia. rewrite X4.
        unfold data; cbn [app]. destruct d2; reflexivity.
      * right. split; [lia|]. exists o, e. split; [|auto].
        rewrite <- X2. f_equal. lia.
    + destruct ioe; inversion H; subst; clear H; eapply Stop; reflexivity.
Qed.

Lemma fill_spec : forall b r b' r' x,
  rb_ok b -> rb_fill b r = (b', r', x) -> fill_outcome b r b' r' x.
Proof.
  intros b r b' r' x OK H. unfold rb_fill in H. eapply fill_loop_spec; [exact OK| |exact H].
  unfold rb_capacity. lia.
Qed.

(** ** [read] and [decode_from_read_buf] *)
Lemma consume_ok : forall b n, rb_ok b -> n <= length (rb_content b) ->
  rb_ok (rb_consume b n) /\ rb_content (rb_consume b n) = skipn n (rb_content b) /\
  rb_capacity (rb_consume b n) = rb_capacity b /\ rb_state (rb_consume b n) = rb_state b.
Proof.
  intros b n OK N. pose proof (indices_le OK) as LE. pose proof OK as [L HT].
  unfold rb_content in *. rewrite stretch_length in N by exact L. unfold rb_consume.
  destruct (rb_head b + n =? rb_tail b) eqn:E.
  - apply Nat.eqb_eq in E. unfold rb_ok, indices_ok, rb_capacity.
    cbn [rb_inner rb_head rb_tail rb_state]. repeat split; try lia.
    rewrite <- stretch_pop by lia. rewrite E, !stretch_nil. reflexivity.
  - apply Nat.eqb_neq in E. unfold rb_ok, indices_ok, rb_capacity.
    cbn [rb_inner rb_head rb_tail rb_state]. repeat split; try lia.
    apply stretch_pop. lia.
Qed.

Lemma read_spec : forall b k, rb_ok b ->
  rb_read b k = (rb_consume b (Nat.min k (length (rb_content b))), Ok (firstn k (rb_content b))).
Proof.
  intros b k OK. pose proof (indices_le OK) as LE. pose proof OK as [L HT].
  unfold rb_read, rb_len. rewrite usize_sub_ok by exact LE.
  unfold slice_from. replace (rb_head b <=? length (rb_inner b)) with true
    by (symmetry; apply Nat.leb_le; lia).
  unfold rb_content. rewrite stretch_length by exact L.
  replace (Nat.min k (rb_tail b - rb_head b) <=? length (skipn (rb_head b) (rb_inner b)))
    with true by (symmetry; apply Nat.leb_le; rewrite skipn_length; lia).
  do 2 f_equal. unfold stretch. rewrite firstn_firstn. reflexivity.
Qed.

Lemma decode_buf_spec : forall S I (D : Decoder S I) fuel s b s' b' x, rb_ok b ->
  decode_from_read_buf D fuel s b = (s', b', x) ->
  exists r, dec_decode D fuel s (rb_content b) (eos_new (st_is_eos (rb_state b))) = (s', r) /\
    match r with
    | Ok n => x = Ok tt /\ b' = rb_consume b n
    | _ => x = rcast r /\ b' = b
    end.
Proof.
  intros S I D fuel s b s' b' x OK H. unfold decode_from_read_buf in H.
  rewrite (window_some OK) in H. fold (rb_content b) in H.
  destruct (dec_decode D fuel s (rb_content b) (eos_new (st_is_eos (rb_state b)))) as [s1 r] eqn:E.
  destruct r; inversion H; subst; clear H;
    (eexists; split; [reflexivity|split; reflexivity]).
Qed.

(** ** [flush] *)
Definition flush_outcome (b : WriteBuf) (w : Writer) (b' : WriteBuf) (w' : Writer) (x : res unit) : Prop :=
  exists rest w1,
    writing w (wb_content b) rest w1 /\
    wb_ok b' /\ wb_inner b' = wb_inner b /\ wb_content b' = rest /\ wb_waker b' = wb_waker b /\
    (rest = [] /\ w' = w1 /\ x = Ok tt /\
       wb_state b' = match wb_content b with [] => wb_state b | _ => StNormal end \/
     rest <> [] /\
       exists o e, wr_write w1 rest = (w', o) /\
         end_of_write o = Some e /\ x = ending_result e /\ wb_state b' = ending_state e).

Lemma advance_ok : forall b n, wb_ok b -> n <= length (wb_content b) ->
  wb_ok (wb_advance b n) /\ wb_content (wb_advance b n) = skipn n (wb_content b) /\
  wb_inner (wb_advance b n) = wb_inner b /\ wb_state (wb_advance b n) = StNormal /\
  wb_waker (wb_advance b n) = wb_waker b.
Proof.
  intros b n OK N. pose proof (indices_le OK) as LE. pose proof OK as [L HT].
  unfold wb_content in *. rewrite stretch_length in N by exact L. unfold wb_advance.
  destruct (wb_head b + n =? wb_tail b) eqn:E.
  - apply Nat.eqb_eq in E. unfold wb_ok, indices_ok.
    cbn [wb_inner wb_head wb_tail wb_state wb_waker]. repeat split; try lia.
    rewrite <- stretch_pop by lia. rewrite E, !stretch_nil. reflexivity.
  - apply Nat.eqb_neq in E. unfold wb_ok, indices_ok.
    cbn [wb_inner wb_head wb_tail wb_state wb_waker]. repeat split; try lia.
    apply stretch_pop. lia.
Qed.

Lemma flush_loop_spec : forall fuel b w b' w' x,
  wb_ok b -> length (wb_content b) < fuel ->
  wb_flush_loop fuel b w = (b', w', x) -> flush_outcome b w b' w' x.
Proof.
  induction fuel as [|fuel IH]; intros b w b' w' x OK F H. lia.
  cbn [wb_flush_loop] in H.
  destruct (wb_is_empty b) eqn:Emp.
  - inversion H; subst; clear H. apply (content_empty OK) in Emp. fold (wb_content b') in Emp.
    exists [], w'. unfold flush_outcome. rewrite Emp. split; [constructor|].
    repeat split; try apply OK. left. auto.
  - assert (NE : wb_content b <> []).
    { intro X. apply (content_empty OK) in X. unfold wb_is_empty in Emp. congruence. }
    rewrite (window_some OK) in H. fold (wb_content b) in H.
    destruct (wr_write w (wb_content b)) as [w1 o] eqn:W.
    assert (Stop : forall e st, end_of_write o = Some e -> b' = wb_set_state b st -> w' = w1 ->
              st = ending_state e -> x = ending_result e -> flush_outcome b w b' w' x).
    { intros e st E -> -> -> ->. exists (wb_content b), w. split; [constructor|].
      split; [exact OK|]. split; [reflexivity|]. split; [reflexivity|]. split; [reflexivity|].
      right. split; [exact NE|]. exists o, e. auto. }
    destruct o as [[|n]|ioe].
    + inversion H; subst; clear H. eapply Stop; reflexivity.
    + pose proof (wr_write_data _ _ W) as [LN _].
      destruct (advance_ok OK LN) as (OK1 & C1 & I1 & S1 & K1).
      apply IH in H; [|exact OK1|rewrite C1, skipn_length; lia].
      destruct H as (rest & w2 & WR & OK' & I' & C' & K' & Cases).
      rewrite C1 in *. exists rest, w2. split; [econstructor; eassumption|].
      split; [exact OK'|]. split; [congruence|]. split; [exact C'|]. split; [congruence|].
      destruct Cases as [(X1 & X2 & X3 & X4)|X].
      * left. repeat split; try assumption. rewrite X4, S1.
        destruct (wb_content b); [congruence|]. destruct (skipn (S n) _); reflexivity.
      * right. exact X.
    + destruct ioe; inversion H; subst; clear H; eapply Stop; reflexivity.
Qed.

Lemma flush_spec : forall b w b' w' x k,
  wb_ok b -> wb_flush b w = (b', w', x, k) ->
  flush_outcome b w b' w' x /\
  k = match x with Ok _ => if wb_tail b' =? length (wb_inner b') then None else wb_waker b' | _ => None end.
Proof.
  intros b w b' w' x k OK H. unfold wb_flush in H.
  destruct (wb_flush_loop (S (wb_tail b)) b w) as [[b1 w1] x1] eqn:E.
  inversion H; subst; clear H. apply flush_loop_spec in E; [|exact OK|].
  - split; [exact E|]. destruct x; try reflexivity. unfold wb_is_full.
    destruct (wb_tail b' =? length (wb_inner b')); reflexivity.
  - unfold wb_content. rewrite stretch_length by apply OK. lia.
Qed.

(** ** [write] and [encode_to_write_buf] *)
Lemma write_spec : forall b data, wb_ok b ->
  exists b', wb_write b data = (b', Ok (Nat.min (length data) (wb_capacity b - wb_tail b))) /\
    wb_ok b' /\ wb_capacity b' = wb_capacity b /\ wb_state b' = wb_state b /\
    wb_waker b' = wb_waker b /\
    wb_content b' = wb_content b ++ firstn (wb_capacity b - wb_tail b) data.
Proof.
  intros b data OK. pose proof (indices_le OK) as LE. pose proof OK as [L HT].
  unfold wb_write, wb_room. rewrite usize_sub_ok by exact L.
  change (length (wb_inner b)) with (wb_capacity b) in *.
  set (n := wb_capacity b - wb_tail b) in *.
  assert (A : firstn (Nat.min (length data) n) data = firstn n data).
  { destruct (Nat.le_ge_cases (length data) n).
    - rewrite Nat.min_l, firstn_all, firstn_all2 by lia. reflexivity.
    - rewrite Nat.min_r by lia. reflexivity. }
  assert (B : length (firstn (Nat.min (length data) n) data) = Nat.min (length data) n)
    by (rewrite firstn_length; lia).
  eexists. split; [reflexivity|].
  assert (C : length (overwrite (wb_inner b) (wb_tail b) (firstn (Nat.min (length data) n) data))
              = wb_capacity b).
  { apply overwrite_length. rewrite B. unfold wb_capacity in *. lia. }
  unfold wb_ok, indices_ok, wb_content, wb_capacity at 1.
  cbn [wb_inner wb_head wb_tail wb_state wb_waker]. rewrite C.
  repeat split; try (unfold n in *; lia).
  rewrite <- B at 2. rewrite stretch_push; [rewrite A; reflexivity|lia|].
  rewrite B. unfold wb_capacity in *. lia.
Qed.

Lemma encode_buf_spec : forall S I (E : Encoder S I) fuel s b s' b' x, wb_ok b ->
  encode_to_write_buf E fuel s b = (s', b', x) ->
  exists d', exists r : res nat,
    enc_encode E fuel s (skipn (wb_tail b) (wb_inner b)) (eos_new (st_is_eos (wb_state b))) = (s', d', r) /\
    wb_inner b' = firstn (wb_tail b) (wb_inner b) ++ d' /\ wb_head b' = wb_head b /\
    wb_state b' = wb_state b /\ wb_waker b' = wb_waker b /\
    match r with
    | Ok n => x = Ok tt /\ wb_tail b' = wb_tail b + n
    | _ => x = rcast r /\ wb_tail b' = wb_tail b + 0
    end.
Proof.
  intros S I E fuel s b s' b' x OK H. unfold encode_to_write_buf in H.
  unfold slice_from in H. replace (wb_tail b <=? length (wb_inner b)) with true in H
    by (symmetry; apply Nat.leb_le; apply OK).
  destruct (enc_encode E fuel s (skipn (wb_tail b) (wb_inner b)) (eos_new (st_is_eos (wb_state b))))
    as [[s1 d1] r] eqn:En.
  destruct r; inversion H; subst; clear H; do 2 eexists; (split; [reflexivity|]);
    rewrite ?Nat.add_0_r; cbn [wb_inner wb_head wb_tail wb_state wb_waker]; auto 10.
Qed.
