(** * Proofs for C80: matching components make matching compositions. *)
From Verif Require Import Twin Lib.
Set Implicit Arguments.
Local Arguments Nat.eqb : simpl never.
Local Arguments Nat.ltb : simpl never.
Local Arguments Nat.leb : simpl never.
Local Arguments N.eqb : simpl never.
Local Arguments N.ltb : simpl never.
Local Arguments N.leb : simpl never.

Section Steps.
  Context {S S' I : Type} (R : S -> S' -> Prop).
  Variables (D : Decoder S I) (D' : Decoder S' I).

  Lemma dm_intro :
    (forall s s', R s s' -> forall fuel buf e,
       exists a a' r, dec_decode D fuel s buf e = (a, r) /\ dec_decode D' fuel s' buf e = (a', r) /\ R a a') ->
    (forall s s', R s s' ->
       exists a a' r, dec_finish D s = (a, r) /\ dec_finish D' s' = (a', r) /\ R a a') ->
    (forall s s', R s s' -> dec_req D s = dec_req D' s') ->
    (forall s s', R s s' -> dec_idle D s = dec_idle D' s') ->
    dmatch R D D'.
  Proof.
    intros H1 H2 H3 H4 s s' Hs [fuel buf e| | |]; cbn.
    - destruct (H1 _ _ Hs fuel buf e) as (a & a' & r & -> & -> & H); cbn; auto.
    - destruct (H2 _ _ Hs) as (a & a' & r & -> & -> & H); cbn; auto.
    - rewrite (H3 _ _ Hs); auto.
    - rewrite (H4 _ _ Hs); auto.
  Qed.
  Hypothesis M : dmatch R D D'.
  Lemma dm_decode : forall s s', R s s' -> forall fuel buf e,
    exists a a' r, dec_decode D fuel s buf e = (a, r) /\ dec_decode D' fuel s' buf e = (a', r) /\ R a a'.
  Proof.
    intros s s' Hs fuel buf e. specialize (M Hs (OpDecode fuel buf e)). cbn in M.
    destruct (dec_decode D fuel s buf e) as [a r], (dec_decode D' fuel s' buf e) as [a' r'].
    cbn in M. destruct M as [H1 H2]. injection H1 as ->. eauto 6.
  Qed.
  Lemma dm_finish : forall s s', R s s' ->
    exists a a' r, dec_finish D s = (a, r) /\ dec_finish D' s' = (a', r) /\ R a a'.
  Proof.
    intros s s' Hs. specialize (M Hs OpFinish). cbn in M.
    destruct (dec_finish D s) as [a r], (dec_finish D' s') as [a' r'].
    cbn in M. destruct M as [H1 H2]. injection H1 as ->. eauto 6.
  Qed.
  Lemma dm_req : forall s s', R s s' -> dec_req D s = dec_req D' s'.
  Proof. intros s s' Hs. specialize (M Hs OpReq). cbn in M. destruct M as [H _]. now injection H. Qed.
  Lemma dm_idle : forall s s', R s s' -> dec_idle D s = dec_idle D' s'.
  Proof. intros s s' Hs. specialize (M Hs OpIdle). cbn in M. destruct M as [H _]. now injection H. Qed.
End Steps.
Arguments dm_decode {S S' I R D D'} M {s s'} Hs fuel buf e.
Arguments dm_finish {S S' I R D D'} M {s s'} Hs.
Arguments dm_req {S S' I R D D'} M {s s'} Hs.
Arguments dm_idle {S S' I R D D'} M {s s'} Hs.

Section ESteps.
  Context {S S' I : Type} (R : S -> S' -> Prop).
  Variables (E : Encoder S I) (E' : Encoder S' I).
  Lemma em_intro :
    (forall s s', R s s' -> forall fuel buf e,
       exists a a' b r, enc_encode E fuel s buf e = (a, b, r) /\
                        enc_encode E' fuel s' buf e = (a', b, r) /\ R a a') ->
    (forall s s', R s s' -> forall fuel i,
       exists a a' r, enc_start E fuel s i = (a, r) /\ enc_start E' fuel s' i = (a', r) /\ R a a') ->
    (forall s s', R s s' -> enc_req E s = enc_req E' s') ->
    (forall s s', R s s' -> enc_idle E s = enc_idle E' s') ->
    ematch R E E'.
  Proof.
    intros H1 H2 H3 H4 s s' Hs [fuel buf e|fuel i| |]; cbn.
    - destruct (H1 _ _ Hs fuel buf e) as (a & a' & b & r & -> & -> & H); cbn; auto.
    - destruct (H2 _ _ Hs fuel i) as (a & a' & r & -> & -> & H); cbn; auto.
    - rewrite (H3 _ _ Hs); auto.
    - rewrite (H4 _ _ Hs); auto.
  Qed.
  Hypothesis M : ematch R E E'.
  Lemma em_encode : forall s s', R s s' -> forall fuel buf e,
    exists a a' b r, enc_encode E fuel s buf e = (a, b, r) /\
                     enc_encode E' fuel s' buf e = (a', b, r) /\ R a a'.
  Proof.
    intros s s' Hs fuel buf e. specialize (M Hs (OpEncode fuel buf e)). cbn in M.
    destruct (enc_encode E fuel s buf e) as [[a b] r], (enc_encode E' fuel s' buf e) as [[a' b'] r'].
    cbn in M. destruct M as [H1 H2]. injection H1 as -> ->. eauto 7.
  Qed.
  Lemma em_start : forall s s', R s s' -> forall fuel i,
    exists a a' r, enc_start E fuel s i = (a, r) /\ enc_start E' fuel s' i = (a', r) /\ R a a'.
  Proof.
    intros s s' Hs fuel i. specialize (M Hs (OpStart fuel i)). cbn in M.
    destruct (enc_start E fuel s i) as [a r], (enc_start E' fuel s' i) as [a' r'].
    cbn in M. destruct M as [H1 H2]. injection H1 as ->. eauto 6.
  Qed.
  Lemma em_req : forall s s', R s s' -> enc_req E s = enc_req E' s'.
  Proof. intros s s' Hs. specialize (M Hs OpEReq). cbn in M. destruct M as [H _]. now injection H. Qed.
  Lemma em_idle : forall s s', R s s' -> enc_idle E s = enc_idle E' s'.
  Proof. intros s s' Hs. specialize (M Hs OpEIdle). cbn in M. destruct M as [H _]. now injection H. Qed.
End ESteps.
Arguments em_encode {S S' I R E E'} M {s s'} Hs fuel buf e.
Arguments em_start {S S' I R E E'} M {s s'} Hs fuel i.
Arguments em_req {S S' I R E E'} M {s s'} Hs.
Arguments em_idle {S S' I R E E'} M {s s'} Hs.

(** ** Decoders *)
Definition tried_rel {S S'} (R : S -> S' -> Prop) (x : tried S) (x' : tried S') : Prop :=
  match x, x' with
  | TGo a n, TGo a' n' => n = n' /\ R a a'
  | TRet a r, TRet a' r' => r = r' /\ R a a'
  | _, _ => False
  end.
Ltac go := repeat first
  [ match goal with
    | |- exists a a' r, (?x, ?y) = _ /\ (?x', ?y') = _ /\ _ =>
        exists x, x', y; split; [reflexivity|split; [reflexivity|]]
    | |- exists a a' b r, (?x, ?z, ?y) = _ /\ (?x', ?z', ?y') = _ /\ _ =>
        exists x, x', z, y; split; [reflexivity|split; [reflexivity|]]
    end
  | progress cbn ].

Section DecComb.
  Context {S S' I : Type} (R : S -> S' -> Prop).
  Variables (D : Decoder S I) (D' : Decoder S' I).
  Hypothesis M : dmatch R D D'.

  Lemma dm_try_decode : forall s s', R s s' -> forall fuel off buf e,
    tried_rel R (try_decode D fuel s off buf e) (try_decode D' fuel s' off buf e).
  Proof.
    intros s s' Hs fuel off buf e. unfold try_decode. rewrite (dm_idle M Hs).
    destruct (dec_idle D' s'); [cbn; auto|]. destruct (slice_from off buf) as [b|]; [|cbn; auto].
    destruct (dm_decode M Hs fuel b e) as (a & a' & r & -> & -> & H).
    destruct r; cbn; auto. rewrite (dm_idle M H). destruct (dec_idle D' a'); cbn; auto.
  Qed.
  Lemma dm_map : forall T (f : I -> T), dmatch R (map_decoder D f) (map_decoder D' f).
  Proof.
    intros T f. apply dm_intro; cbn; intros s s' Hs; [apply (dm_decode M Hs)| |apply (dm_req M Hs)|apply (dm_idle M Hs)].
    destruct (dm_finish M Hs) as (a & a' & r & -> & -> & H). go. exact H.
  Qed.
  Lemma dm_try_map : forall T (f : I -> T + ErrorKind), dmatch R (try_map_decoder D f) (try_map_decoder D' f).
  Proof.
    intros T f. apply dm_intro; cbn; intros s s' Hs; [apply (dm_decode M Hs)| |apply (dm_req M Hs)|apply (dm_idle M Hs)].
    destruct (dm_finish M Hs) as (a & a' & r & -> & -> & H). go. exact H.
  Qed.
  Lemma dm_map_err : forall f, dmatch R (map_err_decoder D f) (map_err_decoder D' f).
  Proof.
    intros f. apply dm_intro; cbn; intros s s' Hs; [intros fuel buf e| |apply (dm_req M Hs)|apply (dm_idle M Hs)].
    - destruct (dm_decode M Hs fuel buf e) as (a & a' & r & -> & -> & H). go. exact H.
    - destruct (dm_finish M Hs) as (a & a' & r & -> & -> & H). go. exact H.
  Qed.
  Lemma dm_omit : dmatch (fun st st' => R (om_inner st) (om_inner st') /\ om_omit st = om_omit st')
    (omit_decoder D) (omit_decoder D').
  Proof.
    apply dm_intro; cbn; intros [s o] [s' o'] [Hs E]; cbn in *; subst o'.
    - intros fuel buf e. destruct o; [go; auto|].
      destruct (dm_decode M Hs fuel buf e) as (a & a' & r & -> & -> & H). go. auto.
    - destruct o; [go; auto|].
      destruct (dm_finish M Hs) as (a & a' & r & -> & -> & H). go. auto.
    - destruct o; [reflexivity|]. apply (dm_req M Hs).
    - rewrite (dm_idle M Hs). reflexivity.
  Qed.
  Lemma dm_collect : dmatch (fun st st' => R (cl_inner st) (cl_inner st') /\ cl_items st = cl_items st' /\
                                           cl_eos st = cl_eos st')
    (collect_decoder D) (collect_decoder D').
  Proof.
    assert (L : forall n fuel items off buf e s s', R s s' ->
      exists a a' r, collect_loop D n fuel s items off buf e = (a, r) /\
                     collect_loop D' n fuel s' items off buf e = (a', r) /\
        R (cl_inner a) (cl_inner a') /\ cl_items a = cl_items a' /\ cl_eos a = cl_eos a').
    { induction n as [|n IH]; intros fuel items off buf e s s' Hs; cbn.
      - destruct (off <? length buf); go; auto.
      - destruct (off <? length buf); [|go; auto].
        pose proof (@dm_try_decode _ _ Hs fuel off buf e) as T.
        destruct (try_decode D fuel s off buf e) as [a k|a r], (try_decode D' fuel s' off buf e) as [a' k'|a' r'];
          cbn in T; try contradiction; destruct T as [<- H]; [|go; auto].
        destruct (dm_finish M H) as (c & c' & q & -> & -> & Hc).
        destruct q; [now apply IH| | |]; go; auto. }
    apply dm_intro; cbn; intros [s it eo] [s' it' eo'] (Hs & E1 & E2); cbn in *; subst it' eo'.
    - intros fuel buf e. destruct eo; [go; auto|now apply L].
    - destruct eo; go; auto.
    - destruct eo; [reflexivity|]. apply (dm_req M Hs).
    - reflexivity.
  Qed.
  Lemma dm_collectn : dmatch (fun st st' => R (cn_inner st) (cn_inner st') /\
                                cn_remaining st = cn_remaining st' /\ cn_items st = cn_items st')
    (collectn_decoder D) (collectn_decoder D').
  Proof.
    assert (L : forall n fuel items off buf e s s', R s s' ->
      exists a a' r, collectn_loop D fuel n s items off buf e = (a, r) /\
                     collectn_loop D' fuel n s' items off buf e = (a', r) /\
        R (cn_inner a) (cn_inner a') /\ cn_remaining a = cn_remaining a' /\ cn_items a = cn_items a').
    { induction n as [|n IH]; intros fuel items off buf e s s' Hs; cbn.
      - go; auto.
      - destruct (off <? length buf); [|go; auto].
        pose proof (@dm_try_decode _ _ Hs fuel off buf e) as T.
        destruct (try_decode D fuel s off buf e) as [a k|a r], (try_decode D' fuel s' off buf e) as [a' k'|a' r'];
          cbn in T; try contradiction; destruct T as [<- H]; [|go; auto].
        destruct (dm_finish M H) as (c & c' & q & -> & -> & Hc).
        destruct q; [now apply IH| | |]; go; auto. }
    apply dm_intro; cbn; intros [s n it] [s' n' it'] (Hs & E1 & E2); cbn in *; subst it' n'.
    - intros fuel buf e. now apply L.
    - destruct (n =? 0); go; auto.
    - destruct (n =? 0); [reflexivity|]. apply (dm_req M Hs).
    - reflexivity.
  Qed.
  Lemma dm_length : dmatch (fun st st' => R (ln_inner st) (ln_inner st') /\
                              ln_expected st = ln_expected st' /\ ln_remaining st = ln_remaining st')
    (length_decoder D) (length_decoder D').
  Proof.
    apply dm_intro; cbn; intros [s x y] [s' x' y'] (Hs & E1 & E2); cbn in *; subst x' y'.
    - intros fuel buf e. unfold length_decode; cbn [ln_remaining ln_expected ln_inner].
      destruct (dm_decode M Hs fuel (firstn (N.to_nat (N.min (len buf) y)) buf)
        (eos_with_remaining (Finite (y - N.min (len buf) y)))) as (a & a' & r & -> & -> & H).
      assert (G : exists a0 a'0 r0,
        match r with
        | Ok size => match u64_sub y (N.of_nat size) with
                     | Some rem => (mkLength a x rem, Ok size)
                     | None => (mkLength a x y, Panic)
                     end
        | r' => (mkLength a x y, r')
        end = (a0, r0) /\
        match r with
        | Ok size => match u64_sub y (N.of_nat size) with
                     | Some rem => (mkLength a' x rem, Ok size)
                     | None => (mkLength a' x y, Panic)
                     end
        | r' => (mkLength a' x y, r')
        end = (a'0, r0) /\ R (ln_inner a0) (ln_inner a'0) /\ ln_expected a0 = ln_expected a'0 /\
        ln_remaining a0 = ln_remaining a'0).
      { destruct r as [k| | |]; [destruct (u64_sub y (N.of_nat k))| | |]; go; auto. }
      destruct (bc_to_u64 (remaining_bytes e)) as [q|]; [|exact G].
      destruct (u64_add q (len buf)) as [t|]; [|go; auto].
      destruct (_ <=? t)%N; [exact G|go; auto].
    - destruct (y =? 0)%N; [|go; auto].
      destruct (dm_finish M Hs) as (a & a' & r & -> & -> & H). go. auto.
    - reflexivity.
    - apply (dm_idle M Hs).
  Qed.
  Lemma dm_max : dmatch (fun st st' => R (mx_inner st) (mx_inner st') /\
                           mx_consumed st = mx_consumed st' /\ mx_max st = mx_max st')
    (max_decoder D) (max_decoder D').
  Proof.
    apply dm_intro; cbn; intros [s x y] [s' x' y'] (Hs & E1 & E2); cbn in *; subst x' y'.
    - intros fuel buf e. unfold max_decode; cbn [mx_inner mx_consumed mx_max].
      change (max_check (mkMax s' x y) buf e) with (max_check (mkMax s x y) buf e).
      destruct (max_check (mkMax s x y) buf e) as [u| | |]; try (go; auto; fail).
      destruct (dm_decode M Hs fuel buf e) as (a & a' & r & -> & -> & H).
      destruct r as [k| | |]; [destruct (u64_add x (N.of_nat k))| | |]; go; auto.
    - destruct (dm_finish M Hs) as (a & a' & r & -> & -> & H). go. auto.
    - apply (dm_req M Hs).
    - apply (dm_idle M Hs).
  Qed.
  Lemma dm_slice : dmatch (fun st st' => R (sl_inner st) (sl_inner st') /\ sl_consumable st = sl_consumable st')
    (slice_decoder D) (slice_decoder D').
  Proof.
    apply dm_intro; cbn; intros [s x] [s' x'] (Hs & E1); cbn in *; subst x'.
    - intros fuel buf e. unfold slice_decode; cbn [sl_inner sl_consumable].
      destruct (eos_back _ _) as [e'|]; [|go; auto].
      destruct (dm_decode M Hs fuel (firstn (N.to_nat (N.min (len buf) x)) buf) e') as (a & a' & r & -> & -> & H).
      destruct r as [k| | |]; [destruct (u64_sub x (N.of_nat k))| | |]; go; auto.
    - destruct (dm_finish M Hs) as (a & a' & r & -> & -> & H). go. auto.
    - apply (dm_req M Hs).
    - apply (dm_idle M Hs).
  Qed.
  Lemma dm_peek : dmatch (fun st st' => R (pk_inner st) (pk_inner st') /\ pk_item st = pk_item st')
    (peek_decoder D) (peek_decoder D').
  Proof.
    apply dm_intro; cbn; intros [s x] [s' x'] (Hs & E1); cbn in *; subst x'.
    - intros fuel buf e. unfold peek_decode; cbn [pk_inner pk_item].
      destruct x as [i|]; [go; auto|].
      destruct (dm_decode M Hs fuel buf e) as (a & a' & r & -> & -> & H).
      destruct r as [k| | |]; try (go; auto; fail).
      rewrite (dm_idle M H). destruct (dec_idle D' a'); [|go; auto].
      destruct (dm_finish M H) as (c & c' & q & -> & -> & Hc). destruct q; go; auto.
    - destruct x; go; auto.
    - destruct x; [reflexivity|]. apply (dm_req M Hs).
    - reflexivity.
  Qed.
  Lemma dm_maybe : dmatch (fun st st' => R (my_inner st) (my_inner st') /\ my_started st = my_started st')
    (maybe_decoder D) (maybe_decoder D').
  Proof.
    apply dm_intro; cbn; intros [s x] [s' x'] (Hs & E1); cbn in *; subst x'.
    - intros fuel buf e. unfold maybe_decode; cbn [my_inner my_started].
      match goal with |- context [dec_decode D fuel s buf ?e0] =>
        destruct (dm_decode M Hs fuel buf e0) as (a & a' & r & -> & -> & H) end.
      destruct r; go; auto.
    - destruct (dm_finish M Hs) as (a & a' & r & -> & -> & H). go. auto.
    - apply (dm_req M Hs).
    - apply (dm_idle M Hs).
  Qed.
End DecComb.
Arguments dm_try_decode {S S' I R D D'} M {s s'} Hs fuel off buf e.

Lemma dm_utf8 : forall S S' (R : S -> S' -> Prop) (D : Decoder S (list byte)) D',
  dmatch R D D' -> dmatch R (utf8_decoder D) (utf8_decoder D').
Proof.
  intros S S' R D D' M. apply dm_intro; cbn; intros s s' Hs; [apply (dm_decode M Hs)| |apply (dm_req M Hs)|apply (dm_idle M Hs)].
  destruct (dm_finish M Hs) as (a & a' & r & -> & -> & H). go. exact H.
Qed.

Lemma dm_and_then : forall S0 S0' S1 S1' I0 I1 (R0 : S0 -> S0' -> Prop) (R1 : S1 -> S1' -> Prop)
  (D0 : Decoder S0 I0) D0' (D1 : Decoder S1 I1) D1' f f',
  dmatch R0 D0 D0' -> dmatch R1 D1 D1' -> (forall i, R1 (f i) (f' i)) ->
  dmatch (fun st st' => R0 (at_inner0 st) (at_inner0 st') /\ opt_rel R1 (at_inner1 st) (at_inner1 st'))
    (and_then_decoder D0 D1 f) (and_then_decoder D0' D1' f').
Proof.
  intros S0 S0' S1 S1' I0 I1 R0 R1 D0 D0' D1 D1' f f' M0 M1 Hf.
  assert (B : forall s0 s0' s1 s1', R0 s0 s0' -> R1 s1 s1' -> forall fuel off buf e,
    exists a a' r, and_then_body D1 fuel s0 s1 off buf e = (a, r) /\
                   and_then_body D1' fuel s0' s1' off buf e = (a', r) /\
      R0 (at_inner0 a) (at_inner0 a') /\ opt_rel R1 (at_inner1 a) (at_inner1 a')).
  { intros s0 s0' s1 s1' H0 H1 fuel off buf e. unfold and_then_body.
    pose proof (dm_try_decode M1 H1 fuel off buf e) as T.
    destruct (try_decode D1 fuel s1 off buf e) as [a k|a r], (try_decode D1' fuel s1' off buf e) as [a' k'|a' r'];
      cbn in T; try contradiction; destruct T as [<- H]; go; auto. }
  apply dm_intro; cbn; intros [s0 x] [s0' x'] [H0 H1]; cbn in *.
  - intros fuel buf e. unfold and_then_decode; cbn [at_inner0 at_inner1].
    destruct x as [s1|], x' as [s1'|]; cbn in H1; try contradiction; [now apply B|].
    pose proof (dm_try_decode M0 H0 fuel 0 buf e) as T.
    destruct (try_decode D0 fuel s0 0 buf e) as [a k|a r], (try_decode D0' fuel s0' 0 buf e) as [a' k'|a' r'];
      cbn in T; try contradiction; destruct T as [<- H]; [|go; auto].
    destruct (dm_finish M0 H) as (c & c' & q & -> & -> & Hc).
    destruct q; [now apply B| | |]; go; auto.
  - destruct x as [s1|], x' as [s1'|]; cbn in H1; try contradiction; [|go; auto].
    destruct (dm_finish M1 H1) as (c & c' & q & -> & -> & Hc). destruct q; go; auto.
  - destruct x as [s1|], x' as [s1'|]; cbn in H1; try contradiction;
      [apply (dm_req M1 H1)|apply (dm_req M0 H0)].
  - destruct x as [s1|], x' as [s1'|]; cbn in H1; try contradiction; [apply (dm_idle M1 H1)|reflexivity].
Qed.

(** *** Tuples *)
Definition dpmatch {S S' I} (R : S -> S' -> Prop) (P : DecParts S I) (P' : DecParts S' I) : Prop :=
  forall s s', R s s' ->
    (forall fuel off buf e, tried_rel R (dp_decode P fuel s off buf e) (dp_decode P' fuel s' off buf e)) /\
    (exists a a' r, dp_finish P s = (a, r) /\ dp_finish P' s' = (a', r) /\ R a a') /\
    (forall q, dp_req P q s = dp_req P' q s') /\
    dp_idle P s = dp_idle P' s'.
Lemma dpm_one : forall S S' I (R : S -> S' -> Prop) (D : Decoder S I) D',
  dmatch R D D' -> dpmatch R (dp_one D) (dp_one D').
Proof.
  intros S S' I R D D' M s s' Hs. cbn. split; [apply (dm_try_decode M Hs)|].
  split; [apply (dm_finish M Hs)|]. rewrite (dm_req M Hs), (dm_idle M Hs). auto.
Qed.
Lemma dpm_snoc : forall S S' T T' I J (R : S -> S' -> Prop) (Q : T -> T' -> Prop)
  (P : DecParts S I) P' (D : Decoder T J) D',
  dpmatch R P P' -> dmatch Q D D' -> dpmatch (both_rel R Q) (dp_snoc P D) (dp_snoc P' D').
Proof.
  intros S S' T T' I J R Q P P' D D' MP M [s t] [s' t'] [Hs Ht]; cbn in *.
  destruct (MP _ _ Hs) as (H1 & H2 & H3 & H4). repeat split.
  - intros fuel off buf e. specialize (H1 fuel off buf e).
    destruct (dp_decode P fuel s off buf e) as [a k|a r], (dp_decode P' fuel s' off buf e) as [a' k'|a' r'];
      cbn in H1; try contradiction; destruct H1 as [<- H]; [|cbn; unfold both_rel; auto].
    pose proof (dm_try_decode M Ht fuel k buf e) as X.
    destruct (try_decode D fuel t k buf e) as [b l|b r], (try_decode D' fuel t' k buf e) as [b' l'|b' r'];
      cbn in X; try contradiction; destruct X as [<- Hx]; cbn; unfold both_rel; auto.
  - destruct H2 as (a & a' & r & -> & -> & H). destruct r; try (go; unfold both_rel; auto; fail).
    destruct (dm_finish M Ht) as (c & c' & q & -> & -> & Hc). go; unfold both_rel; auto.
  - intros q. rewrite H3, (dm_req M Ht). reflexivity.
  - rewrite H4, (dm_idle M Ht). reflexivity.
Qed.
Lemma dm_tuple : forall S S' I (R : S -> S' -> Prop) (P : DecParts S I) P',
  dpmatch R P P' -> dmatch R (tuple_of_dec_parts P) (tuple_of_dec_parts P').
Proof.
  intros S S' I R P P' M. apply dm_intro; cbn; intros s s' Hs; destruct (M _ _ Hs) as (H1 & H2 & H3 & H4); auto.
  intros fuel buf e. specialize (H1 fuel 0 buf e).
  destruct (dp_decode P fuel s 0 buf e) as [a k|a r], (dp_decode P' fuel s' 0 buf e) as [a' k'|a' r'];
    cbn in H1; try contradiction; destruct H1 as [<- H]; go; auto.
Qed.

Scheme twin_mut := Induction for twin Sort Prop with twin_parts_mut := Induction for twin_parts Sort Prop.
Lemma twin_match : forall S S' I (D : Decoder S I) (D' : Decoder S' I) R, twin D D' R -> dmatch R D D'.
Proof.
  apply (twin_mut (fun S S' I D D' R _ => dmatch R D D') (fun S S' I P P' R _ => dpmatch R P P')); intros.
  - assumption.
  - now apply dm_map.
  - now apply dm_try_map.
  - now apply dm_map_err.
  - now apply dm_utf8.
  - now apply dm_and_then.
  - now apply dm_omit.
  - now apply dm_collect.
  - now apply dm_collectn.
  - now apply dm_length.
  - now apply dm_max.
  - now apply dm_slice.
  - now apply dm_peek.
  - now apply dm_maybe.
  - now apply dm_tuple.
  - now apply dpm_one.
  - now apply dpm_snoc.
Qed.

(** ** Drivers of encoders *)
Section EncComb.
  Context {S S' I : Type} (R : S -> S' -> Prop).
  Variables (E : Encoder S I) (E' : Encoder S' I).
  Hypothesis M : ematch R E E'.

  Lemma em_try_encode : forall s s', R s s' -> forall fuel off buf e,
    tried_rel R (fst (try_encode E fuel s off buf e)) (fst (try_encode E' fuel s' off buf e)) /\
    snd (try_encode E fuel s off buf e) = snd (try_encode E' fuel s' off buf e).
  Proof.
    intros s s' Hs fuel off buf e. unfold try_encode. rewrite (em_idle M Hs).
    destruct (enc_idle E' s'); [cbn; auto|]. destruct (slice_from off buf) as [b|]; [|cbn; auto].
    destruct (em_encode M Hs fuel b e) as (a & a' & c & r & -> & -> & H).
    destruct r; cbn; auto. rewrite (em_idle M H). destruct (enc_idle E' a'); cbn; auto.
  Qed.
  Lemma em_encode_all_loop : forall fuel ifuel s s', R s s' -> forall buf w,
    exists a a' v r, encode_all_loop E fuel ifuel s buf w = (a, v, r) /\
                     encode_all_loop E' fuel ifuel s' buf w = (a', v, r) /\ R a a'.
  Proof.
    induction fuel as [|fuel IH]; intros ifuel s s' Hs buf w; cbn [encode_all_loop];
      rewrite (em_idle M Hs); (destruct (enc_idle E' s'); [go; auto|]); [go; auto|].
    destruct (em_encode M Hs ifuel buf (eos_new false)) as (a & a' & b & r & -> & -> & H).
    destruct r as [k| | |]; try (go; auto; fail).
    destruct (k <=? length b); [|go; auto].
    destruct (wr_write_all w (firstn k b)) as [v [u| | |]]; try (go; auto; fail).
    rewrite (em_idle M H). destruct (negb (enc_idle E' a') && (k =? 0)); [go; auto|]. now apply IH.
  Qed.
  Lemma em_encode_all : forall fuel s s', R s s' -> forall w,
    exists a a' v r, encode_all E fuel s w = (a, v, r) /\ encode_all E' fuel s' w = (a', v, r) /\ R a a'.
  Proof. intros fuel s s' Hs w. unfold encode_all. now apply em_encode_all_loop. Qed.
  Lemma em_encode_into_bytes : forall fuel s s', R s s' -> forall i,
    exists a a' r, encode_into_bytes E fuel s i = (a, r) /\ encode_into_bytes E' fuel s' i = (a', r) /\ R a a'.
  Proof.
    intros fuel s s' Hs i. unfold encode_into_bytes.
    destruct (em_start M Hs fuel i) as (a & a' & r & -> & -> & H).
    destruct r; try (go; auto; fail).
    rewrite (em_req M H). destruct (enc_req E' a') as [[n| |]| | |]; try (go; auto; fail).
    - destruct (n <=? isize_max)%N; [|go; auto].
      destruct (em_encode M H fuel (repeat x00 (N.to_nat n)) (eos_new true)) as (c & c' & b & q & -> & -> & Hc).
      destruct q; try (go; auto; fail). rewrite (em_idle M Hc). destruct (enc_idle E' c'); go; auto.
    - destruct (em_encode_all fuel H (mkWriter [] [])) as (c & c' & v & q & -> & -> & Hc).
      destruct q; go; auto.
  Qed.

  (** ** Encoders *)
  Lemma em_map_from : forall T (f : T -> I), ematch R (map_from_encoder E f) (map_from_encoder E' f).
  Proof.
    intros T f. apply em_intro; cbn; intros s s' Hs; [apply (em_encode M Hs)|intros; apply (em_start M Hs)|apply (em_req M Hs)|apply (em_idle M Hs)].
  Qed.
  Lemma em_try_map_from : forall T (f : T -> I + ErrorKind),
    ematch R (try_map_from_encoder E f) (try_map_from_encoder E' f).
  Proof.
    intros T f. apply em_intro; cbn; intros s s' Hs; [apply (em_encode M Hs)|intros fuel i|apply (em_req M Hs)|apply (em_idle M Hs)].
    destruct (f i); [apply (em_start M Hs)|go; auto].
  Qed.
  Lemma em_map_err : forall f, ematch R (map_err_encoder E f) (map_err_encoder E' f).
  Proof.
    intros f. apply em_intro; cbn; intros s s' Hs; [intros fuel buf e|intros fuel i|apply (em_req M Hs)|apply (em_idle M Hs)].
    - destruct (em_encode M Hs fuel buf e) as (a & a' & b & r & -> & -> & H). go. exact H.
    - destruct (em_start M Hs fuel i) as (a & a' & r & -> & -> & H). go. exact H.
  Qed.
  Lemma em_optional : ematch R (optional_encoder E) (optional_encoder E').
  Proof.
    apply em_intro; cbn; intros s s' Hs; [apply (em_encode M Hs)|intros fuel [i|]|apply (em_req M Hs)|apply (em_idle M Hs)].
    - apply (em_start M Hs).
    - go. exact Hs.
  Qed.
  Lemma em_repeat_pull : forall fuel items s s', R s s' ->
    match repeat_pull E fuel s items, repeat_pull E' fuel s' items with
    | PullGo a l, PullGo a' l' => l = l' /\ R a a'
    | PullDone a, PullDone a' => R a a'
    | PullFail a l r, PullFail a' l' r' => l = l' /\ r = r' /\ R a a'
    | _, _ => False
    end.
  Proof.
    intros fuel items. induction items as [|i items IH]; intros s s' Hs; cbn [repeat_pull];
      rewrite (em_idle M Hs); destruct (enc_idle E' s'); auto.
    destruct (em_start M Hs fuel i) as (a & a' & r & -> & -> & H).
    destruct r; auto. now apply IH.
  Qed.
  Lemma em_repeat : ematch (fun st st' => R (rp_inner st) (rp_inner st') /\ rp_items st = rp_items st')
    (repeat_encoder E) (repeat_encoder E').
  Proof.
    assert (L : forall n fuel s s' it off buf e, R s s' ->
      exists a a' b r, repeat_loop E n fuel (mkRepeat s it) off buf e = (a, b, r) /\
                       repeat_loop E' n fuel (mkRepeat s' it) off buf e = (a', b, r) /\
                       R (rp_inner a) (rp_inner a') /\ rp_items a = rp_items a').
    { induction n as [|n IH]; intros fuel s s' it off buf e Hs; cbn [repeat_loop rp_inner rp_items].
      - go; auto.
      - pose proof (em_repeat_pull fuel (match it with Some l => l | None => [] end) Hs) as P.
        destruct (repeat_pull E fuel s _) as [a l|a|a l r], (repeat_pull E' fuel s' _) as [a' l'|a'|a' l' r'];
          try contradiction.
        + destruct P as [<- H]. destruct (slice_from off buf) as [b|]; [|go; auto].
          destruct (em_encode M H fuel b e) as (c & c' & d & r & -> & -> & Hc).
          destruct r as [k| | |]; try (go; auto; fail).
          destruct (k =? 0); [go; auto|]. now apply IH.
        + go; auto.
        + destruct P as (<- & <- & H). go; auto. }
    apply em_intro; cbn; intros [s x] [s' x'] (Hs & E1); cbn in *; subst x'.
    - intros fuel buf e. now apply L.
    - intros fuel i. unfold repeat_idle; cbn. destruct x; go; auto.
    - reflexivity.
    - reflexivity.
  Qed.
  Lemma em_length : ematch (fun st st' => R (ln_inner st) (ln_inner st') /\
                              ln_expected st = ln_expected st' /\ ln_remaining st = ln_remaining st')
    (length_encoder E) (length_encoder E').
  Proof.
    apply em_intro; cbn; intros [s x y] [s' x' y'] (Hs & E1 & E2); cbn in *; subst x' y'.
    - intros fuel buf e. unfold length_encode; cbn [ln_remaining ln_expected ln_inner].
      destruct ((len buf <? y)%N && is_reached e); [go; auto|].
      match goal with |- context [enc_encode E fuel s ?b ?e0] =>
        destruct (em_encode M Hs fuel b e0) as (a & a' & c & r & -> & -> & H) end.
      destruct r as [k| | |]; try (go; auto; fail).
      destruct (u64_sub y (N.of_nat k)) as [z|]; [|go; auto].
      rewrite (em_idle M H). destruct (_ && _); go; auto.
    - intros fuel i. destruct (y =? x)%N; [|go; auto].
      destruct (em_start M Hs fuel i) as (a & a' & r & -> & -> & H). go. auto.
    - reflexivity.
    - reflexivity.
  Qed.
  Lemma em_max : ematch (fun st st' => R (mx_inner st) (mx_inner st') /\
                           mx_consumed st = mx_consumed st' /\ mx_max st = mx_max st')
    (max_encoder E) (max_encoder E').
  Proof.
    apply em_intro; cbn; intros [s x y] [s' x' y'] (Hs & E1 & E2); cbn in *; subst x' y'.
    - intros fuel buf e. unfold max_encode; cbn [mx_inner mx_consumed mx_max].
      destruct (em_encode M Hs fuel buf e) as (a & a' & b & r & -> & -> & H).
      destruct r as [k| | |]; try (go; auto; fail).
      destruct (u64_add x (N.of_nat k)) as [z|]; [|go; auto].
      rewrite (em_idle M H). destruct (z <=? y)%N; go; auto.
    - intros fuel i. destruct (em_start M Hs fuel i) as (a & a' & r & -> & -> & H). go. auto.
    - apply (em_req M Hs).
    - apply (em_idle M Hs).
  Qed.
  Lemma em_pre : ematch (fun st st' => R (pre_inner st) (pre_inner st') /\ pre_encoded st = pre_encoded st')
    (pre_encoder E) (pre_encoder E').
  Proof.
    apply em_intro; cbn; intros [s x] [s' x'] (Hs & E1); cbn in *; subst x'.
    - intros fuel buf e. destruct (bytes_encode vec_box x buf e) as [[b' buf'] r]. go; auto.
    - intros fuel i. unfold pre_start; cbn [pre_inner pre_encoded].
      destruct (em_encode_into_bytes fuel Hs i) as (a & a' & r & -> & -> & H).
      destruct r as [l| | |]; try (go; auto; fail). destruct (bytes_start x l). go; auto.
    - reflexivity.
    - reflexivity.
  Qed.
  Lemma em_slice : ematch (fun st st' => R (sl_inner st) (sl_inner st') /\ sl_consumable st = sl_consumable st')
    (slice_encoder E) (slice_encoder E').
  Proof.
    apply em_intro; cbn; intros [s x] [s' x'] (Hs & E1); cbn in *; subst x'.
    - intros fuel buf e. unfold slice_encode; cbn [sl_inner sl_consumable].
      destruct (eos_back _ _) as [e'|]; [|go; auto].
      match goal with |- context [enc_encode E fuel s ?b ?e0] =>
        destruct (em_encode M Hs fuel b e0) as (a & a' & c & r & -> & -> & H) end.
      destruct r as [k| | |]; [destruct (u64_sub x (N.of_nat k))| | |]; go; auto.
    - intros fuel i. destruct (em_start M Hs fuel i) as (a & a' & r & -> & -> & H). go. auto.
    - apply (em_req M Hs).
    - apply (em_idle M Hs).
  Qed.
  Lemma em_last : ematch (fun st st' => R (la_inner st) (la_inner st') /\ la_item st = la_item st')
    (last_encoder E) (last_encoder E').
  Proof.
    apply em_intro; cbn; intros [s x] [s' x'] (Hs & E1); cbn in *; subst x'.
    - intros fuel buf e. unfold last_encode; cbn [la_inner la_item].
      rewrite (em_idle M Hs). destruct (enc_idle E' s').
      + destruct x as [i|].
        * destruct (em_start M Hs fuel i) as (a & a' & r & -> & -> & H).
          destruct r; try (go; auto; fail).
          destruct (em_encode M H fuel buf e) as (c & c' & b & q & -> & -> & Hc). go; auto.
        * destruct (em_encode M Hs fuel buf e) as (c & c' & b & q & -> & -> & Hc). go; auto.
      + destruct (em_encode M Hs fuel buf e) as (c & c' & b & q & -> & -> & Hc). go; auto.
    - intros fuel [].
    - destruct x; [reflexivity|]. apply (em_req M Hs).
    - destruct x; [reflexivity|]. apply (em_idle M Hs).
  Qed.
End EncComb.
Arguments em_try_encode {S S' I R E E'} M {s s'} Hs fuel off buf e.

Definition epmatch {S S' I} (R : S -> S' -> Prop) (P : EncParts S I) (P' : EncParts S' I) : Prop :=
  forall s s', R s s' ->
    (forall fuel off buf e,
       tried_rel R (fst (ep_encode P fuel s off buf e)) (fst (ep_encode P' fuel s' off buf e)) /\
       snd (ep_encode P fuel s off buf e) = snd (ep_encode P' fuel s' off buf e)) /\
    (forall fuel i, exists a a' r, ep_start P fuel s i = (a, r) /\ ep_start P' fuel s' i = (a', r) /\ R a a') /\
    (forall q, ep_req P q s = ep_req P' q s') /\
    ep_idle P s = ep_idle P' s'.
Lemma epm_one : forall S S' I (R : S -> S' -> Prop) (E : Encoder S I) E',
  ematch R E E' -> epmatch R (ep_one E) (ep_one E').
Proof.
  intros S S' I R E E' M s s' Hs. cbn. split; [apply (em_try_encode M Hs)|].
  split; [apply (em_start M Hs)|]. rewrite (em_req M Hs), (em_idle M Hs). auto.
Qed.
Lemma epm_snoc : forall S S' T T' I J (R : S -> S' -> Prop) (Q : T -> T' -> Prop)
  (P : EncParts S I) P' (E : Encoder T J) E',
  epmatch R P P' -> ematch Q E E' -> epmatch (both_rel R Q) (ep_snoc P E) (ep_snoc P' E').
Proof.
  intros S S' T T' I J R Q P P' E E' MP M [s t] [s' t'] [Hs Ht]; cbn in *.
  destruct (MP _ _ Hs) as (H1 & H2 & H3 & H4). split; [|split; [|split]].
  - intros fuel off buf e. specialize (H1 fuel off buf e).
    destruct (ep_encode P fuel s off buf e) as [[a k|a r] b], (ep_encode P' fuel s' off buf e) as [[a' k'|a' r'] b'];
      cbn in H1; destruct H1 as [H1 <-]; try contradiction; destruct H1 as [<- H]; [|cbn; unfold both_rel; auto].
    pose proof (em_try_encode M Ht fuel k b e) as X.
    destruct (try_encode E fuel t k b e) as [[c l|c r] d], (try_encode E' fuel t' k b e) as [[c' l'|c' r'] d'];
      cbn in X; destruct X as [X <-]; try contradiction; destruct X as [<- Hx]; cbn; unfold both_rel; auto.
  - intros fuel i. destruct (H2 fuel (fst i)) as (a & a' & r & -> & -> & H).
    destruct r; try (go; unfold both_rel; auto; fail).
    destruct (em_start M Ht fuel (snd i)) as (c & c' & q & -> & -> & Hc). go; unfold both_rel; auto.
  - intros q. rewrite H3, (em_req M Ht). reflexivity.
  - rewrite H4, (em_idle M Ht). reflexivity.
Qed.
Lemma em_tuple : forall S S' I (R : S -> S' -> Prop) (P : EncParts S I) P',
  epmatch R P P' -> ematch R (tuple_of_enc_parts P) (tuple_of_enc_parts P').
Proof.
  intros S S' I R P P' M. apply em_intro; cbn; intros s s' Hs; destruct (M _ _ Hs) as (H1 & H2 & H3 & H4); auto.
  intros fuel buf e. specialize (H1 fuel 0 buf e).
  destruct (ep_encode P fuel s 0 buf e) as [[a k|a r] b], (ep_encode P' fuel s' 0 buf e) as [[a' k'|a' r'] b'];
    cbn in H1; destruct H1 as [H1 <-]; try contradiction; destruct H1 as [<- H]; go; auto.
Qed.

Scheme etwin_mut := Induction for etwin Sort Prop with etwin_parts_mut := Induction for etwin_parts Sort Prop.
Lemma etwin_match : forall S S' I (E : Encoder S I) (E' : Encoder S' I) R, etwin E E' R -> ematch R E E'.
Proof.
  apply (etwin_mut (fun S S' I E E' R _ => ematch R E E') (fun S S' I P P' R _ => epmatch R P P')); intros.
  - assumption.
  - now apply em_map_from.
  - now apply em_try_map_from.
  - now apply em_map_err.
  - now apply em_optional.
  - now apply em_repeat.
  - now apply em_length.
  - now apply em_max.
  - now apply em_pre.
  - now apply em_slice.
  - now apply em_last.
  - now apply em_tuple.
  - now apply epm_one.
  - now apply epm_snoc.
Qed.

(** ** Traces *)
Lemma dmatch_trace : forall S S' I (R : S -> S' -> Prop) (D : Decoder S I) D',
  dmatch R D D' -> forall ops s s', R s s' -> dec_trace D s ops = dec_trace D' s' ops.
Proof.
  intros S S' I R D D' M ops. induction ops as [|o ops IH]; intros s s' Hs; cbn [dec_trace]; [reflexivity|].
  destruct (M _ _ Hs o) as [H1 H2].
  destruct (dec_do D s o) as [a b], (dec_do D' s' o) as [a' b']; cbn in *; subst. f_equal. auto.
Qed.
Lemma ematch_trace : forall S S' I (R : S -> S' -> Prop) (E : Encoder S I) E',
  ematch R E E' -> forall ops s s', R s s' -> enc_trace E s ops = enc_trace E' s' ops.
Proof.
  intros S S' I R D D' M ops. induction ops as [|o ops IH]; intros s s' Hs; cbn [enc_trace]; [reflexivity|].
  destruct (M _ _ Hs o) as [H1 H2].
  destruct (enc_do D s o) as [a b], (enc_do D' s' o) as [a' b']; cbn in *; subst. f_equal. auto.
Qed.
Lemma dalike_match : forall S S' I (D : Decoder S I) (D' : Decoder S' I), dmatch (dalike D D') D D'.
Proof.
  intros S S' I D D' s s' H o.
  pose proof (H [o]) as H1. cbn [dec_trace] in H1.
  assert (H2 : forall ops, dec_trace D s (o :: ops) = dec_trace D' s' (o :: ops)) by (intros; apply H).
  cbn [dec_trace] in H2. unfold dalike.
  destruct (dec_do D s o) as [a b], (dec_do D' s' o) as [a' b']; cbn in *. injection H1 as ->. split; [reflexivity|].
  intros ops. specialize (H2 ops). now injection H2.
Qed.
Lemma ealike_match : forall S S' I (E : Encoder S I) (E' : Encoder S' I), ematch (ealike E E') E E'.
Proof.
  intros S S' I D D' s s' H o.
  pose proof (H [o]) as H1. cbn [enc_trace] in H1.
  assert (H2 : forall ops, enc_trace D s (o :: ops) = enc_trace D' s' (o :: ops)) by (intros; apply H).
  cbn [enc_trace] in H2. unfold ealike.
  destruct (enc_do D s o) as [a b], (enc_do D' s' o) as [a' b']; cbn in *. injection H1 as ->. split; [reflexivity|].
  intros ops. specialize (H2 ops). now injection H2.
Qed.

(** ** Drivers of decoders *)
Lemma dm_decode_from_bytes : forall S S' I (R : S -> S' -> Prop) (D : Decoder S I) D',
  dmatch R D D' -> forall s s', R s s' -> forall fuel buf,
  exists a a' r, decode_from_bytes D fuel s buf = (a, r) /\ decode_from_bytes D' fuel s' buf = (a', r) /\ R a a'.
Proof.
  intros S S' I R D D' M s s' Hs fuel buf. unfold decode_from_bytes.
  destruct (dm_decode M Hs fuel buf (eos_new true)) as (a & a' & r & -> & -> & H).
  destruct r as [k| | |]; try (go; auto; fail).
  destruct (k =? length buf); [apply (dm_finish M H)|go; auto].
Qed.
Lemma dm_decode_exact : forall S S' I (R : S -> S' -> Prop) (D : Decoder S I) D',
  dmatch R D D' -> forall fuel ifuel s s' rd, R s s' ->
  exists a a' v r, decode_exact D fuel ifuel s rd = (a, v, r) /\
                   decode_exact D' fuel ifuel s' rd = (a', v, r) /\ R a a'.
Proof.
  intros S S' I R D D' M fuel ifuel. induction fuel as [|fuel IH]; intros s s' rd Hs; cbn [decode_exact]; [go; auto|].
  rewrite (dm_req M Hs). destruct (dec_req D' s') as [q| | |]; try (go; auto; fail).
  cbv zeta. destruct (if exact_ask q =? 0 then (rd, inl []) else rd_read rd (exact_ask q)) as [rd' [b|x]]; [|go; auto].
  match goal with |- context [dec_decode D ifuel s b ?e0] =>
    destruct (dm_decode M Hs ifuel b e0) as (a & a' & r & -> & -> & H) end.
  destruct r as [k| | |]; try (go; auto; fail).
  destruct (k =? length b); [|go; auto].
  rewrite (dm_idle M H). destruct (dec_idle D' a'); [|now apply IH].
  destruct (dm_finish M H) as (c & c' & y & -> & -> & Hc). go; auto.
Qed.

Lemma dmatch_end : forall S S' I (R : S -> S' -> Prop) (D : Decoder S I) D',
  dmatch R D D' -> forall ops s s', R s s' -> R (dec_end D s ops) (dec_end D' s' ops).
Proof.
  intros S S' I R D D' M ops. induction ops as [|o ops IH]; intros s s' Hs; cbn [dec_end]; [exact Hs|].
  apply IH. now destruct (M _ _ Hs o).
Qed.
Lemma ematch_end : forall S S' I (R : S -> S' -> Prop) (E : Encoder S I) E',
  ematch R E E' -> forall ops s s', R s s' -> R (enc_end E s ops) (enc_end E' s' ops).
Proof.
  intros S S' I R D D' M ops. induction ops as [|o ops IH]; intros s s' Hs; cbn [enc_end]; [exact Hs|].
  apply IH. now destruct (M _ _ Hs o).
Qed.
