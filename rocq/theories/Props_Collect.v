(** * C25: a call to [decode] on [collect] returns. *)
From Verif Require Import LiveProofs Examples.
Set Implicit Arguments.

(** ** Any inner decoder whose items take at least one byte *)
Lemma collect_keeps : forall S I (D : Decoder S I) (Reach : S -> Prop),
  (forall s fuel buf e s' r, Reach s -> dec_decode D fuel s buf e = (s', r) -> Reach s') ->
  (forall s s' r, Reach s -> dec_finish D s = (s', r) -> Reach s') ->
  forall fuel st buf e st' r, Reach (cl_inner st) -> dec_decode (collect_decoder D) fuel st buf e = (st', r) -> Reach (cl_inner st').
Proof.
  intros S I D Reach PD PF.
  assert (T : forall s fuel off buf e, Reach s ->
    match try_decode D fuel s off buf e with TGo s' _ => Reach s' | TRet s' _ => Reach s' end).
  { intros s fuel off buf e R. unfold try_decode. destruct (dec_idle D s); auto.
    destruct (slice_from off buf); auto. destruct (dec_decode D fuel s l e) as [s1 r] eqn:E.
    pose proof (PD _ _ _ _ _ _ R E). destruct r; auto. destruct (dec_idle D s1); auto. }
  intros fuel [s it eos] buf e st' r R. cbn in R |- *. destruct eos; [intros [= <- <-]; auto|].
  generalize fuel at 1 as n. generalize 0 as off. intros off n. revert off s it R.
  induction n; intros off s it R; cbn [collect_loop].
  - destruct (off <? length buf); intros [= <- <-]; auto.
  - destruct (off <? length buf); [|intros [= <- <-]; auto].
    pose proof (T s fuel off buf e R) as T1.
    destruct (try_decode D fuel s off buf e) as [t o|t r']; [|intros [= <- <-]; auto].
    destruct (dec_finish D t) as [u x] eqn:E. pose proof (PF _ _ _ T1 E).
    destruct x; [|intros [= <- <-]; auto ..]. apply IHn. auto.
Qed.
Lemma collect_called : forall S I (D : Decoder S I) Reach s0 st,
  productive D Reach -> Reach s0 -> called (collect_decoder D) (collect_new s0) st -> Reach (cl_inner st).
Proof.
  intros S I D Reach s0 st P H0 H. induction H; auto.
  - eapply collect_keeps; [| |exact IHcalled|exact H1]; [exact (@pv_decode _ _ _ _ P)|exact (@pv_finish _ _ _ _ P)].
  - clear H. destruct s1 as [s it eos]. cbn in H1, IHcalled. destruct eos; injection H1 as <- <-; auto.
Qed.

Lemma collect_returns : forall S I (D : Decoder S I) Reach st,
  productive D Reach -> Reach (cl_inner st) -> returns (collect_decoder D) st.
Proof.
  intros S I D Reach st P R.
  destruct st as [s it eos]. cbn in R. intros fuel buf e F. cbn. destruct eos; [discriminate|].
  assert (L : forall n off s it, Reach s -> (takes_a_byte D s \/ Datatypes.S (length buf - off) < n) ->
    length buf - off < n -> snd (collect_loop D n fuel s it off buf e) <> OutOfFuel).
  { clear s it R. induction n; intros off s it R TB LT; [lia|]. cbn [collect_loop].
    destruct (Nat.ltb_spec off (length buf)); [|discriminate]. unfold try_decode.
    assert (FIN : forall t o, Reach t -> off <= o ->
       (o = off -> forall u i, dec_finish D t = (u, Ok i) -> Datatypes.S (length buf - off) < Datatypes.S n) ->
       snd (match dec_finish D t with
            | (u, Ok i) => collect_loop D n fuel u (it ++ [i]) o buf e
            | (u, r) => (mkCollect u it false, rcast r) end) <> OutOfFuel).
    { intros t o Rt LE TI. pose proof (pv_finish_returns P Rt) as X.
      destruct (dec_finish D t) as [u [i| | |]] eqn:E; cbn in X |- *; try congruence.
      apply IHn; [exact (pv_finish P Rt E)|left; exact (pv_byte P Rt E)|].
      destruct (Nat.eq_dec o off) as [->|]; [specialize (TI eq_refl _ _ eq_refl)|]; lia. }
    destruct (dec_idle D s) eqn:id.
    - apply FIN; auto. intros _ u i E. destruct TB as [[TB _]|]; [|lia]. destruct (TB id u i E).
    - unfold slice_from. destruct (Nat.leb_spec off (length buf)); [|lia].
      assert (NE : skipn off buf <> []).
      { intros X. apply (f_equal (@length byte)) in X. rewrite skipn_length in X. cbn in X. lia. }
      pose proof (pv_returns P R fuel (skipn off buf) e) as RT.
      assert (EN : enough fuel (skipn off buf)) by (unfold enough in *; rewrite skipn_length; lia).
      specialize (RT EN).
      destruct (dec_decode D fuel s (skipn off buf) e) as [s1 [k| | |]] eqn:E; cbn in RT |- *; try congruence.
      destruct (dec_idle D s1) eqn:id1; [|discriminate].
      apply FIN; [exact (pv_decode P R E)|lia|]. intros K u i E2. assert (k = 0) by lia. subst k.
      destruct TB as [[_ TB]|]; [|lia]. destruct (TB _ _ _ _ _ _ id NE E id1 E2). }
  apply L; auto; unfold enough in F; [right|]; lia.
Qed.
Theorem C25_collect_returns : forall S I (D : Decoder S I) Reach s0 st,
  productive D Reach -> Reach s0 ->
  called (collect_decoder D) (collect_new s0) st ->
  returns (collect_decoder D) st.
Proof. intros S I D Reach s0 st P H0 H. exact (collect_returns _ P (collect_called P H0 H)). Qed.
Print Assumptions C25_collect_returns.

(** The fixed-size byte decoder (and with it every fixed-width number) is such a decoder; in
    every state, also after errors. *)
Example C25_productive : forall n,
  productive (copy_decoder vec_box) (fun st => length (cd_bytes st) = S n).
Proof.
  intros n. constructor.
  - intros [b off] fuel buf e s' r L. cbn in L |- *. unfold copy_decode; cbn.
    unfold usize_sub. destruct (Nat.leb_spec off (length b)); [|now intros [= <- <-]].
    destruct (_ && _); intros [= <- <-]; cbn [cd_bytes bx_put vec_box];
      rewrite !app_length, !firstn_length, skipn_length, ?firstn_length; lia.
  - intros [b off] s' r L. cbn in L |- *. unfold copy_finish; cbn. destruct (_ =? _); intros [= <- <-]; auto.
  - intros [b off] _ fuel buf e _. cbn. unfold copy_decode; cbn. destruct (usize_sub _ _); [destruct (_ && _)|]; discriminate.
  - intros [b off] _. cbn. unfold copy_finish; cbn. destruct (_ =? _); discriminate.
  - intros [b off] s' i L. cbn in L |- *. unfold copy_finish; cbn. destruct (_ =? _); intros [= <- <-].
    split; cbn.
    + rewrite L. discriminate.
    + intros fuel buf e s1 s2 i _ NE. unfold copy_decode; cbn -[Nat.sub Nat.min].
      rewrite Nat.sub_0_r.
      destruct (_ && _); [discriminate|]. intros [= <- E]. destruct buf; [congruence|].
      cbn [length] in E. lia.
Qed.
Example C25_example : forall fuel buf e, enough fuel buf ->
  snd (dec_decode (collect_decoder (copy_decoder vec_box)) fuel
         (collect_new (copy_dec_new [x00; x00])) buf e) <> OutOfFuel.
Proof.
  intros fuel buf e F.
  refine (C25_collect_returns (C25_productive 1) (s0 := copy_dec_new [x00; x00]) _ (called_start _ _) e F).
  reflexivity.
Qed.

(** The condition is necessary: over a decoder whose items take no bytes the loop never ends. *)
Theorem C25_empty_items_refuted : forall fuel buf e,
  buf <> [] ->
  snd (dec_decode (collect_decoder null_decoder) fuel (collect_new tt) buf e) = OutOfFuel.
Proof.
  intros fuel buf e NE. cbn. destruct buf as [|x buf]; [congruence|]. clear NE.
  change (cl_items (collect_new tt)) with (@nil unit). generalize (@nil unit) as it. generalize fuel at 1 as n.
  induction n; intros it; cbn [collect_loop]; cbn; auto.
Qed.
Print Assumptions C25_empty_items_refuted.

(** ** Every decoder of the term language *)
Theorem C25_terms : forall A (c : codec A) ops s acc items,
  usable c -> collects_bytes c ->
  history (decoder c) (dec_fresh c) ops s acc items ->
  returns (decoder c) s /\ snd (dec_finish (decoder c) s) <> OutOfFuel.
Proof.
  intros A c ops s acc items U CB H.
  pose proof (live_history (proj1 term_live A c U CB) H) as LV. split.
  - exact (lv_ret (live_closed _) _ LV).
  - exact (lv_end (live_closed _) LV).
Qed.
Print Assumptions C25_terms.
(** A file of records; the last of the calls is made after a complete record and with part of
    the next one, on a stream that then ends. *)
Example C25_terms_example :
  usable ex_file /\ collects_bytes ex_file /\
  exists s, history (decoder ex_file) (dec_fresh ex_file) [ODecode 9 [x07; x00; x02; xaa; xbb; x08] (eos_new false)]
     s [x07; x00; x02; xaa; xbb; x08] [] /\
     snd (dec_decode (decoder ex_file) 5 s [x00] (eos_new true)) = Err UnexpectedEos.
Proof.
  split; [apply ex_file_usable|]. split.
  - cbn. split; [|auto]. intros w [a b] (w0 & w1 & -> & [L _] & _).
    destruct w0; [discriminate|]. discriminate.
  - pose proof (hist_start (decoder ex_file) (dec_fresh ex_file)) as H.
    eapply hist_decode with (fuel := 9) (buf := [x07; x00; x02; xaa; xbb; x08]) (e := eos_new false) in H;
      [|reflexivity|vm_compute; reflexivity].
    eexists. split; [exact H|]. vm_compute. reflexivity.
Qed.
