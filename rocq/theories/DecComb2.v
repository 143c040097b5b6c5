(** * The combinators preserve the decoding contract, continued. *)
From Verif Require Export DecComb.
Set Implicit Arguments.

(** ** Tuples of any size: one more component on the right. *)
Lemma tuple_snoc_parses : forall S I S' I' (P : DecParts S I) (D : Decoder S' I') m
    (Q : S -> Prop) (Q' : S' -> Prop) s s' w w' i i',
  parts_ok P ->
  (len (w ++ w') <= isize_max)%N ->
  (m = ToEos -> dec_idle D s' = false) ->
  parses (tuple_of_dec_parts P) SD Q s w i -> parses D m Q' s' w' i' ->
  parses (tuple_of_dec_parts (dp_snoc P D)) m (fun s => Q (fst s) /\ Q' (snd s))
         (s, s') (w ++ w') (i, i').
Proof.
  intros. eapply parses_ext; [apply tuple_snoc_eq; auto|]. apply pair_parses; auto.
Qed.

(** ** and_then *)
Section AndThenP.
  Context {S0 S1 I0 I1 : Type} (D0 : Decoder S0 I0) (D1 : Decoder S1 I1) (f : I0 -> S1)
          (m : mode) (P0 : S0 -> Prop) (P1 : S1 -> Prop).

  Definition and_then_R (st : AndThen S0 S1) (w : list byte) (i : I1) : Prop :=
    (len w <= isize_max)%N /\
    match at_inner1 st with
    | None => exists w0 w1 i0, w = w0 ++ w1 /\ w0 <> [] /\
        parses D0 SD P0 (at_inner0 st) w0 i0 /\ parses D1 m P1 (f i0) w1 i /\
        (m = ToEos -> dec_idle D1 (f i0) = false)
    | Some s1 => P0 (at_inner0 st) /\ parses D1 m P1 s1 w i
    end.

  Lemma and_then_body_more : forall fuel s0 s1 pre b w' extra e i,
    P0 s0 -> parses D1 m P1 s1 (b ++ w') i -> w' <> [] -> (m <> SD -> extra = []) ->
    truthful m (pre ++ b) (w' ++ extra) e -> length (pre ++ b) < fuel ->
    exists st', and_then_body D1 fuel s0 s1 (length pre) (pre ++ b) e
                = (st', Ok (length (pre ++ b))) /\
      dec_idle (and_then_decoder D0 D1 f) st' = false /\ and_then_R st' w' i.
  Proof.
    intros fuel s0 s1 pre b w' extra e i H0 H1 NE EX T F.
    pose proof (parses_len H1) as L. rewrite len_app in L.
    destruct (dec_idle D1 s1) eqn:id1.
    { destruct (parses_idle H1 id1) as (N & _). destruct b, w'; try discriminate; congruence. }
    assert (T1 : truthful m b (w' ++ extra) e) by (eapply truthful_shrink; eauto).
    assert (F1 : length b < fuel) by (rewrite app_length in F; lia).
    destruct (parses_more H1 id1 NE EX T1 F1) as (s1' & E1 & id1' & H1').
    unfold and_then_body, try_decode. rewrite id1, slice_from_app, E1, id1'.
    eexists; split; [rewrite app_length; reflexivity|]. cbn. split; auto.
    split; [lia|]. cbn; auto.
  Qed.
  Arguments and_then_body_more {fuel s0 s1} pre b {w' extra e i} _ _ _ _ _ _.

  Lemma and_then_body_last : forall fuel s0 s1 pre w extra rest e i,
    P0 s0 -> parses D1 m P1 s1 w i -> (m <> SD -> extra = [] /\ rest = []) ->
    (m = ToEos -> dec_idle D1 s1 = false) ->
    truthful m (pre ++ w ++ extra) rest e -> length (pre ++ w ++ extra) < fuel ->
    exists st', and_then_body D1 fuel s0 s1 (length pre) (pre ++ w ++ extra) e
                = (st', Ok (length (pre ++ w))) /\
      dec_idle (and_then_decoder D0 D1 f) st' = done_idle m e /\ and_then_R st' [] i.
  Proof.
    intros fuel s0 s1 pre w extra rest e i H0 H1 EX X T F.
    destruct (dec_idle D1 s1) eqn:id1.
    - destruct (parses_idle H1 id1) as (-> & _).
      unfold and_then_body, try_decode. rewrite id1.
      eexists; split; [rewrite app_nil_r; reflexivity|]. cbn. rewrite id1. split.
      + destruct m; auto. discriminate (X eq_refl).
      + split; [cbn; lia|]. cbn; auto.
    - assert (T1 : truthful m (w ++ extra) rest e) by (eapply truthful_shrink; eauto).
      assert (F1 : length (w ++ extra) < fuel) by (rewrite app_length in F; lia).
      destruct (parses_last H1 id1 EX T1 F1) as (s1' & E1 & id1' & H1').
      unfold and_then_body, try_decode. rewrite id1, slice_from_app, E1.
      exists (mkAndThen s0 (Some s1')). split; [rewrite app_length; destruct (dec_idle D1 s1'); reflexivity|].
      cbn. split; auto. split; [cbn; lia|]. cbn; auto.
  Qed.
  Arguments and_then_body_last {fuel s0 s1} pre {w} extra {rest e i} _ _ _ _ _ _.

  Lemma and_then_step : step_ok (and_then_decoder D0 D1 f) m
    (fun st => P0 (at_inner0 st) /\ at_inner1 st = None) and_then_R.
  Proof.
    constructor.
    - intros s w i (L & _); exact L.
    - intros [s0 [s1|]] w i (L & H) id; cbn in *; [|discriminate]. destruct H as [H0 H1].
      destruct (parses_idle H1 id) as (-> & Q1 & s1' & F1 & PP1).
      rewrite Q1, F1. split; [auto|split; [auto|]]. eexists; split; [reflexivity|]. auto.
    - intros [s0 [s1|]] w i (L & H) id; cbn in *.
      + destruct H as [_ H]. exact (parses_req H id).
      + destruct H as (w0 & w1 & i0 & -> & NE & H0 & H1 & X).
        destruct (dec_idle D0 s0) eqn:id0.
        { destruct (parses_idle H0 id0) as (-> & _). congruence. }
        pose proof (parses_req H0 id0) as Q.
        destruct (dec_req D0 s0) as [[n| |]| | |]; cbn in Q; try tauto.
        * destruct m; cbn; rewrite ?len_app; intuition (try lia).
          assert (n <> 0%N) by (intro; auto). lia.
        * destruct m; cbn; auto; destruct w0; cbn; congruence.
    - intros [s0 [s1|]] i fuel buf w' extra e (L & H) id NE EX T F; cbn in *; unfold and_then_decode; cbn.
      + destruct H as [H0 H1].
        destruct (and_then_body_more [] buf H0 H1 NE EX T F)
          as (st' & E & ? & ?). exists st'. auto.
      + destruct H as (w0 & w1 & i0 & E & NE0 & H0 & H1 & X).
        destruct (dec_idle D0 s0) eqn:id0.
        { destruct (parses_idle H0 id0) as (-> & _). congruence. }
        unfold try_decode. rewrite id0, slice_from_0.
        destruct (app_cases _ _ _ _ (eq_sym E)) as [(w0' & -> & -> & NE')|(b1 & -> & ->)].
        * assert (T0 : truthful SD buf (w0' ++ w1 ++ extra) e)
            by (rewrite app_assoc; now apply truthful_weaken with m).
          destruct (parses_more H0 id0 NE' ltac:(congruence) T0 F) as (s0' & E0 & id0' & H0').
          rewrite E0, id0'. eexists; split; [reflexivity|]. cbn. split; auto. split.
          { rewrite !len_app in *. lia. }
          cbn. exists w0', w1, i0; auto 6.
        * assert (T0 : truthful SD (w0 ++ b1) (w' ++ extra) e) by (now apply truthful_weaken with m).
          destruct (parses_last H0 id0 ltac:(congruence) T0 F) as (s0' & E0 & id0' & H0').
          cbn in id0'. rewrite E0, id0'. cbn [Nat.add].
          destruct (parses_idle H0' id0') as (_ & _ & s0'' & -> & PP).
          destruct (and_then_body_more w0 b1 PP H1 NE EX T F) as (st' & E1 & ? & ?).
          exists st'; auto.
    - intros [s0 [s1|]] i fuel w extra rest e (L & H) id EX T F; cbn in *; unfold and_then_decode; cbn.
      + destruct H as [H0 H1].
        destruct (and_then_body_last [] extra H0 H1 EX (fun _ => id) T F)
          as (st' & E & ? & ?). exists st'. auto.
      + destruct H as (w0 & w1 & i0 & -> & NE0 & H0 & H1 & X).
        destruct (dec_idle D0 s0) eqn:id0.
        { destruct (parses_idle H0 id0) as (-> & _). congruence. }
        unfold try_decode. rewrite id0, slice_from_0. rewrite <- app_assoc in *.
        assert (T0 : truthful SD (w0 ++ w1 ++ extra) rest e) by (now apply truthful_weaken with m).
        destruct (parses_last H0 id0 ltac:(congruence) T0 F) as (s0' & E0 & id0' & H0').
        cbn in id0'. rewrite E0, id0'. cbn [Nat.add].
        destruct (parses_idle H0' id0') as (_ & _ & s0'' & -> & PP).
        destruct (and_then_body_last w0 extra PP H1 EX X T F) as (st' & E1 & ? & ?).
        exists st'; auto.
  Qed.
  Lemma and_then_parses : forall s0 w0 w1 i0 i1,
    w0 <> [] -> (len (w0 ++ w1) <= isize_max)%N ->
    (m = ToEos -> dec_idle D1 (f i0) = false) ->
    parses D0 SD P0 s0 w0 i0 -> parses D1 m P1 (f i0) w1 i1 ->
    parses (and_then_decoder D0 D1 f) m (fun st => P0 (at_inner0 st) /\ at_inner1 st = None)
           (and_then_new s0) (w0 ++ w1) i1.
  Proof.
    intros s0 w0 w1 i0 i1 NE0 L X H0 H1. exists and_then_R; split.
    2:{ split; auto. cbn. exists w0, w1, i0; auto. }
    exact and_then_step.
  Qed.
End AndThenP.

(** ** length *)
Definition length_R S I (D : Decoder S I) m P (w0 : list byte) (st : Length S) (w : list byte)
    (i : I) : Prop :=
  parses D m P (ln_inner st) w i /\ ln_remaining st = len w /\ ln_expected st = len w0.
Lemma length_step : forall S I (D : Decoder S I) m P w0,
  step_ok (length_decoder D) SD
    (fun st => P (ln_inner st) /\ ln_expected st = len w0 /\ ln_remaining st = len w0)
    (length_R D m P w0).
Proof.
  intros S I D m P w0. unfold length_R. constructor.
  - intros s w i (H & _). exact (parses_len H).
  - intros [s x r] w i (H & E & E') id. cbn in *. subst.
    destruct (parses_idle H id) as (-> & Q & s' & F & PP). cbn. rewrite F. eauto 10.
  - intros [s x r] w i (H & E & E') id. cbn in *. subst. split; [lia|]. apply len_0.
  - intros [s x r] i fuel buf w' extra e (H & E & E') id NE EX T F. cbn in *. subst r.
    unfold length_decode; cbn. rewrite len_app.
    replace (N.min (len buf) (len buf + len w')) with (len buf) by lia.
    rewrite len_length, firstn_all.
    replace (len buf + len w' - len buf)%N with (len w') by lia.
    pose proof (parses_len H) as L. rewrite len_app in L. pose proof isize_u64.
    assert (T1 : truthful m buf (w' ++ []) (Finite (len w'))).
    { rewrite app_nil_r. right; left; split; auto; lia. }
    destruct (parses_more H id NE (fun _ => eq_refl) T1 F) as (s' & E1 & id' & H').
    unfold eos_with_remaining. rewrite E1.
    rewrite u64_sub_ok by (unfold len; lia).
    assert (G : exists st', (mkLength s' x (len buf + len w' - N.of_nat (length buf))%N, @Ok nat (length buf))
                = (st', Ok (length buf)) /\ dec_idle D (ln_inner st') = false /\
                  parses D m P (ln_inner st') w' i /\ ln_remaining st' = len w' /\
                  ln_expected st' = len w0).
    { eexists; split; [reflexivity|]. cbn. repeat split; auto. unfold len; lia. }
    destruct T as [->|[[-> T2]|[-> _]]]; cbn; auto.
    rewrite u64_add_ok by lia. rewrite len_app in *.
    replace (len w' <=? _)%N with true by lia. auto.
  - intros [s x r] i fuel w extra rest e (H & E & E') id EX T F. cbn in *. subst r.
    unfold length_decode; cbn. rewrite len_app.
    replace (N.min (len w + len extra) (len w)) with (len w) by lia.
    rewrite len_length, firstn_app_exact.
    replace (len w - len w)%N with 0%N by lia.
    pose proof (parses_len H) as L. pose proof isize_u64.
    assert (T1 : truthful m (w ++ []) [] (Finite 0)).
    { right; left; split; auto. rewrite app_nil_r, len_nil. lia. }
    assert (F1 : length (w ++ []) < fuel) by (rewrite app_length in *; cbn; lia).
    destruct (parses_last H id (fun _ => conj eq_refl eq_refl) T1 F1) as (s' & E1 & id' & H').
    rewrite app_nil_r in E1. unfold eos_with_remaining. rewrite E1.
    rewrite u64_sub_ok by (unfold len; lia).
    assert (G : exists st', (mkLength s' x (len w - N.of_nat (length w))%N, @Ok nat (length w))
                = (st', Ok (length w)) /\ dec_idle D (ln_inner st') = true /\
                  parses D m P (ln_inner st') [] i /\ ln_remaining st' = len [] /\
                  ln_expected st' = len w0).
    { eexists; split; [reflexivity|]. cbn. repeat split; auto; [|unfold len; cbn; lia].
      rewrite id'. destruct m; reflexivity. }
    destruct T as [->|[[-> T2]|[-> _]]]; cbn; auto.
    rewrite len_app in T2.
    rewrite u64_add_ok by lia. replace (0 <=? _)%N with true by lia. auto.
Qed.

Lemma length_parses : forall S I (D : Decoder S I) m P s w i,
  parses D m P s w i ->
  parses (length_decoder D) SD
         (fun st => P (ln_inner st) /\ ln_expected st = len w /\ ln_remaining st = len w)
         (length_new s (len w)) w i.
Proof.
  intros S I D m P s w i H. exists (length_R D m P w). split; [apply length_step|].
  repeat split; auto.
Qed.

(** ** max_bytes: nothing may follow the item on the stream, since a buffer larger than the
    budget is rejected. *)
Definition max_R S I (D : Decoder S I) m P (mx tot : N) (st : MaxBytes S) (w : list byte) (i : I) : Prop :=
  parses D m P (mx_inner st) w i /\ (mx_consumed st + len w = tot)%N /\ mx_max st = mx.
Lemma max_step : forall S I (D : Decoder S I) m P mx tot,
  m <> SD -> (tot <= mx <= u64_max)%N ->
  step_ok (max_decoder D) m
    (fun st => P (mx_inner st) /\ mx_consumed st = 0%N /\ mx_max st = mx) (max_R D m P mx tot).
Proof.
  intros S I D m P mx tot NSD MX. unfold max_R. constructor.
  - intros s w i (H & _). exact (parses_len H).
  - intros [s c x] w i (H & E & E') id. cbn in *. subst.
    destruct (parses_idle H id) as (-> & Q & s' & F & PP). rewrite F. eauto 10.
  - intros [s c x] w i (H & E & E') id. cbn in *. exact (parses_req H id).
  - intros [s c x] i fuel buf w' extra e (H & E & E') id NE EX T F. cbn in *. subst x.
    unfold max_decode; cbn. rewrite len_app in E.
    destruct (parses_more H id NE EX T F) as (s' & E1 & id' & H').
    rewrite EX, app_nil_r in T by auto.
    assert (G : max_check (mkMax s c mx) buf e = Ok tt).
    { unfold max_check; cbn. rewrite u64_sub_ok by lia.
      destruct T as [->|[[-> T2]|[_ ?]]]; cbn; try congruence.
      - replace (_ <=? _)%N with true by lia; auto.
      - rewrite u64_add_ok by lia. replace (_ <=? _)%N with true by lia; auto. }
    rewrite G, E1. rewrite u64_add_ok by (unfold len in *; lia).
    eexists; split; [reflexivity|]. cbn. repeat split; auto. unfold len in *; lia.
  - intros [s c x] i fuel w extra rest e (H & E & E') id EX T F. cbn in *. subst x.
    unfold max_decode; cbn.
    destruct (parses_last H id EX T F) as (s' & E1 & id' & H').
    destruct (EX NSD) as [-> ->]. rewrite app_nil_r in *.
    assert (G : max_check (mkMax s c mx) w e = Ok tt).
    { unfold max_check; cbn. rewrite u64_sub_ok by lia.
      destruct T as [->|[[-> T2]|[_ ?]]]; cbn; try congruence.
      - replace (_ <=? _)%N with true by lia; auto.
      - rewrite u64_add_ok by lia. rewrite len_nil in *. replace (_ <=? _)%N with true by lia; auto. }
    rewrite G, E1. rewrite u64_add_ok by (unfold len in *; lia).
    eexists; split; [reflexivity|]. cbn. repeat split; auto. unfold len in *; cbn; lia.
Qed.

Lemma max_parses : forall S I (D : Decoder S I) m P s w i mx,
  m <> SD -> (len w <= mx <= u64_max)%N ->
  parses D m P s w i ->
  parses (max_decoder D) m
         (fun st => P (mx_inner st) /\ mx_consumed st = 0%N /\ mx_max st = mx)
         (max_new s mx) w i.
Proof.
  intros S I D m P s w i mx NSD BND H. exists (max_R D m P mx (len w)). split; [apply max_step; auto; lia|].
  repeat split; cbn; auto; lia.
Qed.

(** ** peekable *)
Definition peek_R S I (D : Decoder S I) m P (st : Peekable S I) (w : list byte) (i : I) : Prop :=
  match pk_item st with
  | Some j => w = [] /\ j = i /\ P (pk_inner st)
  | None => dec_idle D (pk_inner st) = false /\ parses D m P (pk_inner st) w i
  end.
Lemma peek_step : forall S I (D : Decoder S I) m P,
  step_ok (peek_decoder D) m (fun st => P (pk_inner st) /\ pk_item st = None) (peek_R D m P).
Proof.
  intros S I D m P. unfold peek_R. constructor.
  - intros [s [j|]] w i; cbn.
    + intros (-> & _). cbn; lia.
    + intros (_ & H). exact (parses_len H).
  - intros [s [j|]] w i; cbn; [|discriminate]. intros (-> & -> & H) _. eauto 10.
  - intros [s [j|]] w i; cbn; [discriminate|]. intros (id & H) _. exact (parses_req H id).
  - intros [s [j|]] i fuel buf w' extra e; cbn; [discriminate|].
    intros (id & H) _ NE EX T F. unfold peek_decode; cbn.
    destruct (parses_more H id NE EX T F) as (s' & E1 & id' & H').
    rewrite E1, id'. eexists; split; [reflexivity|]. cbn; auto.
  - intros [s [j|]] i fuel w extra rest e; cbn; [discriminate|].
    intros (id & H) _ EX T F. unfold peek_decode; cbn.
    destruct (parses_last H id EX T F) as (s' & E1 & id' & H').
    rewrite E1. destruct (dec_idle D s') eqn:id2; rewrite <- id'.
    + destruct (parses_idle H' id2) as (_ & _ & s'' & -> & PP).
      eexists; split; [reflexivity|]. cbn; auto.
    + eexists; split; [reflexivity|]. cbn; auto.
Qed.

Lemma peek_parses : forall S I (D : Decoder S I) m P s w i,
  dec_idle D s = false ->
  parses D m P s w i ->
  parses (peek_decoder D) m (fun st => P (pk_inner st) /\ pk_item st = None) (peek_new s) w i.
Proof.
  intros S I D m P s w i ID H. exists (peek_R D m P). split; [apply peek_step|]. cbn; auto.
Qed.

(** Before the last byte [peek] shows nothing; afterwards it shows the item. *)

(** ** maybe_eos: transparent unless nothing at all arrives. *)
Definition maybe_R S I (D : Decoder S I) m P (st : MaybeEos S) (w : list byte) (i : I) : Prop :=
  parses D m P (my_inner st) w i /\
  (m = ToEos -> w = [] -> dec_idle D (my_inner st) = false -> my_started st = true).
Lemma maybe_step : forall S I (D : Decoder S I) m P,
  step_ok (maybe_decoder D) m (fun st => P (my_inner st) /\ my_started st = false) (maybe_R D m P).
Proof.
  intros S I D m P. unfold maybe_R.
  constructor.
  - intros s w i (H & _). exact (parses_len H).
  - intros [s b] w i (H & X) id. cbn in *.
    destruct (parses_idle H id) as (-> & Q & s' & F & PP). rewrite F. eauto 10.
  - intros [s b] w i (H & X) id. cbn in *. exact (parses_req H id).
  - intros [s b] i fuel buf w' extra e (H & X) id NE EX T F. cbn in *.
    unfold maybe_decode; cbn.
    rewrite (truthful_not_reached T) by (destruct w'; cbn; congruence). rewrite andb_false_r.
    destruct (parses_more H id NE EX T F) as (s' & E1 & id' & H').
    rewrite E1. eexists; split; [reflexivity|]. cbn. repeat split; auto.
  - intros [s b] i fuel w extra rest e (H & X) id EX T F. cbn in *.
    unfold maybe_decode; cbn [my_started my_inner].
    set (e' := if negb b && (length (w ++ extra) =? 0) && is_reached e then eos_new false else e).
    assert (T' : truthful m (w ++ extra) rest e').
    { unfold e'. destruct (negb b && (length (w ++ extra) =? 0) && is_reached e); auto. left; reflexivity. }
    destruct (parses_last H id EX T' F) as (s' & E1 & id' & H').
    rewrite E1. eexists; split; [reflexivity|]. cbn.
    assert (DI : done_idle m e' = done_idle m e).
    { destruct m; auto. cbn. unfold e'. destruct b; auto. cbn.
      destruct w as [|x w]; [discriminate (X eq_refl eq_refl id)|reflexivity]. }
    rewrite id', DI. repeat split; auto.
    intros -> _ _. destruct w as [|x w]; [rewrite X by auto; auto|]. cbn. apply orb_true_r.
Qed.

Lemma maybe_parses : forall S I (D : Decoder S I) m P s w i,
  (m = ToEos -> w <> []) ->
  parses D m P s w i ->
  parses (maybe_decoder D) m (fun st => P (my_inner st) /\ my_started st = false)
         (maybe_new s) w i.
Proof.
  intros S I D m P s w0 i0 X H. exists (maybe_R D m P). split; [apply maybe_step|].
  split; auto. intros A B; destruct (X A B).
Qed.

(** ** collect and collectn *)
Section Coll.
  Context {S I : Type} (D : Decoder S I) (fmt : format I) (P : S -> Prop)
          (DEC : decodes D SD fmt P P) (NEF : forall w i, fmt w i -> w <> []).

  (** Concatenation of encoded items. *)
  Definition seq_fmt : format (list I) :=
    fun w is => exists ws, w = concat ws /\ Forall2 fmt ws is.

  (** Between two items, or inside one. *)
  Definition coll_at (s : S) (w : list byte) (is : list I) : Prop :=
    (P s /\ seq_fmt w is) \/
    (exists w1 w2 i1 is2, w = w1 ++ w2 /\ is = i1 :: is2 /\ w1 <> [] /\
       parses D SD P s w1 i1 /\ seq_fmt w2 is2).

  Lemma coll_mid : forall s w is, coll_at s w is -> is <> [] ->
    exists w1 w2 i1 is2, w = w1 ++ w2 /\ is = i1 :: is2 /\ w1 <> [] /\
       parses D SD P s w1 i1 /\ seq_fmt w2 is2.
  Proof.
    intros s w is [(Ps & ws & -> & F)|H]; auto. intros NE.
    destruct F as [|w1 i1 ws is F1 F]; [congruence|].
    exists w1, (concat ws), i1, is. repeat split; auto.
    - eapply NEF; eauto.
    - exists ws; auto.
  Qed.

  Lemma coll_nonnil : forall s w is, coll_at s w is -> w <> [] -> is <> [].
  Proof.
    intros s w is [(Ps & ws & -> & F)|(w1 & w2 & i1 & is2 & -> & -> & _)] NE; [|discriminate].
    destruct F; [|discriminate]. cbn in NE; congruence.
  Qed.

  Lemma coll_nil : forall s is, coll_at s [] is -> is = [] /\ P s.
  Proof.
    intros s is [(Ps & ws & E & F)|(w1 & w2 & i1 & is2 & E & _ & NE & _)].
    - destruct F as [|w1 i1 ws is F1 F]; auto.
      cbn in E. symmetry in E. apply app_eq_nil in E. destruct E as [-> _].
      destruct (NEF F1 eq_refl).
    - symmetry in E. apply app_eq_nil in E. destruct E as [-> _]. congruence.
  Qed.

  (** Inside an item the inner decoder is not idle. *)
  Lemma mid_not_idle : forall s w1 i1, w1 <> [] -> parses D SD P s w1 i1 -> dec_idle D s = false.
  Proof.
    intros s w1 i1 NE H. destruct (dec_idle D s) eqn:id; auto.
    destruct (parses_idle H id) as (-> & _). congruence.
  Qed.

  Lemma collect_loop_ok : forall n fuel s acc pre b w' is e,
    coll_at s (b ++ w') is -> truthful ToEos b w' e -> length b < n -> length b < fuel ->
    exists s' acc' is', collect_loop D n fuel s acc (length pre) (pre ++ b) e
        = (mkCollect s' acc' (is_reached e), Ok (length (pre ++ b))) /\
      acc' ++ is' = acc ++ is /\ coll_at s' w' is'.
  Proof.
    induction n as [|n IH]; intros fuel s acc pre b w' is e C T N F; [lia|].
    cbn [collect_loop].
    destruct b as [|x b0].
    { rewrite app_nil_r. rewrite Nat.ltb_irrefl.
      exists s, acc, is. auto. }
    set (b := x :: b0) in *.
    replace (length pre <? length (pre ++ b)) with true
      by (rewrite app_length; unfold b; cbn [length]; lia).
    assert (NE : is <> []) by (eapply coll_nonnil; [eauto|unfold b; discriminate]).
    destruct (coll_mid C NE) as (w1 & w2 & i1 & is2 & E & -> & NE1 & H & SQ).
    pose proof (mid_not_idle NE1 H) as id.
    unfold try_decode. rewrite id, slice_from_app.
    destruct (app_cases _ _ _ _ (eq_sym E)) as [(w1' & -> & -> & NE')|(b1 & Eb & ->)].
    - assert (T0 : truthful SD b (w1' ++ w2) e) by (eapply truthful_weaken; eauto).
      destruct (parses_more H id NE' ltac:(congruence) T0 F) as (s' & -> & -> & H').
      rewrite (truthful_not_reached T) by (destruct w1'; cbn; congruence).
      exists s', acc, (i1 :: is2). rewrite app_length. repeat split; auto.
      right. exists w1', w2, i1, is2. auto 6.
    - rewrite Eb in *.
      assert (T0 : truthful SD (w1 ++ b1) w' e) by (eapply truthful_weaken; eauto).
      destruct (parses_last H id ltac:(congruence) T0 F) as (s' & -> & id' & H').
      cbn in id'. rewrite id'. destruct (parses_idle H' id') as (_ & _ & s'' & -> & PP).
      pose proof (length_nonnil NE1). rewrite app_length in N, F.
      destruct (IH fuel s'' (acc ++ [i1]) (pre ++ w1) b1 w' is2 e) as (s3 & acc3 & is3 & E3 & A3 & C3);
        try lia.
      { left; auto. }
      { eapply truthful_shrink; eauto. }
      rewrite <- app_assoc in E3. rewrite app_length in E3. rewrite E3.
      exists s3, acc3, is3. repeat split; auto.
      now rewrite A3, <- app_assoc.
  Qed.
  Arguments collect_loop_ok {n fuel s} acc pre b {w' is e} _ _ _ _.

  Hypothesis INH : exists w i, fmt w i.

  Lemma collect_parses : forall s w is,
    P s -> (len w <= isize_max)%N -> seq_fmt w is ->
    parses (collect_decoder D) ToEos
           (fun st => P (cl_inner st) /\ cl_items st = [] /\ cl_eos st = false)
           (collect_new s) w is.
  Proof.
    intros s w is Ps L SQ.
    exists (fun st w is => (len w <= isize_max)%N /\ (cl_eos st = true -> w = []) /\
       exists is', cl_items st ++ is' = is /\ coll_at (cl_inner st) w is'); split.
    2:{ split; auto. split; [discriminate|]. exists is; split; auto. left; auto. }
    clear - DEC NEF INH. constructor.
    - intros ? ? ? (L & _); auto.
    - intros [s acc eo] w is (L & X & is' & <- & C) id. cbn in *. rewrite id. rewrite (X id) in *.
      destruct (coll_nil C) as [-> Ps]. rewrite app_nil_r. eauto 10.
    - intros [s acc eo] w is (L & X & is' & <- & C) id. cbn in *. rewrite id.
      assert (Q : exists w1 i1, w1 <> [] /\ parses D SD P s w1 i1 ).
      { destruct C as [(Ps & _)|(w1 & w2 & i1 & is2 & -> & -> & NE1 & H & SQ)].
        - destruct INH as (w1 & i1 & F). exists w1, i1. eauto.
        - exists w1, i1. auto. }
      destruct Q as (w1 & i1 & NE & H).
      pose proof (parses_req H (mid_not_idle NE H)) as Q. pose proof (parses_len H) as L1.
      destruct (dec_req D s) as [[n| |]| | |]; cbn in Q |- *; auto.
      destruct Q as [Q1 Q2]. split; [|lia].
      destruct (N.eq_dec n 0) as [n0|]; [|lia]. destruct (NE (Q2 n0)).
    - intros [s acc eo] is fuel buf w' extra e (L & X & is' & <- & C) id NE EX T F. cbn in *.
      rewrite id. rewrite EX, app_nil_r in T by congruence.
      destruct (collect_loop_ok acc [] buf C T F F) as (s3 & acc3 & is3 & E3 & A3 & C3).
      cbn in E3. rewrite E3. eexists; split; [reflexivity|]. cbn.
      rewrite (truthful_not_reached T) by auto. split; auto. rewrite len_app in L.
      split; [lia|]. split; [discriminate|]. eauto.
    - intros [s acc eo] is fuel w extra rest e (L & X & is' & <- & C) id EX T F. cbn in *.
      rewrite id. destruct EX as [-> ->]; [congruence|]. rewrite app_nil_r in *.
      assert (C' : coll_at s (w ++ []) is') by (now rewrite app_nil_r).
      destruct (collect_loop_ok acc [] w C' T F F) as (s3 & acc3 & is3 & E3 & A3 & C3).
      cbn in E3. rewrite E3. eexists; split; [reflexivity|]. cbn.
      split; auto. split; [cbn; lia|]. split; eauto.
  Qed.

  Lemma collectn_loop_more : forall is fuel s acc pre b w' extra e,
    coll_at s (b ++ w') is -> w' <> [] -> truthful SD b (w' ++ extra) e -> length b < fuel ->
    exists s' acc' is', collectn_loop D fuel (length is) s acc (length pre) (pre ++ b) e
        = (mkCollectN s' (length is') acc', Ok (length (pre ++ b))) /\
      acc' ++ is' = acc ++ is /\ coll_at s' w' is'.
  Proof.
    induction is as [|i0 is IH]; intros fuel s acc pre b w' extra e C NE T F.
    { exfalso. apply (coll_nonnil C); auto. destruct b, w'; cbn; congruence. }
    destruct (coll_mid C ltac:(discriminate)) as (w1 & w2 & i1 & is2 & E & [= <- <-] & NE1 & H & SQ).
    pose proof (mid_not_idle NE1 H) as id.
    assert (NR : is_reached e = false)
      by (eapply truthful_not_reached; [exact T|destruct w'; cbn; congruence]).
    cbn [collectn_loop length].
    destruct b as [|x b0].
    { rewrite app_nil_r, Nat.ltb_irrefl, NR. cbn [negb andb Nat.eqb].
      exists s, acc, (i0 :: is). auto. }
    set (b := x :: b0) in *.
    replace (length pre <? length (pre ++ b)) with true
      by (rewrite app_length; unfold b; cbn [length]; lia).
    unfold try_decode. rewrite id, slice_from_app.
    destruct (app_cases _ _ _ _ (eq_sym E)) as [(w1' & -> & -> & NE')|(b1 & Eb & ->)].
    - rewrite <- app_assoc in T.
      destruct (parses_more H id NE' ltac:(congruence) T F) as (s' & -> & -> & H').
      exists s', acc, (i0 :: is). rewrite app_length. repeat split; auto.
      right. exists w1', w2, i0, is. auto 6.
    - rewrite Eb in *.
      destruct (parses_last H id ltac:(congruence) T F) as (s' & -> & id' & H').
      cbn in id'. rewrite id'. destruct (parses_idle H' id') as (_ & _ & s'' & -> & PP).
      rewrite app_length in F.
      destruct (IH fuel s'' (acc ++ [i0]) (pre ++ w1) b1 w' extra e) as (s3 & acc3 & is3 & E3 & A3 & C3);
        try lia; auto.
      { left; auto. }
      { eapply truthful_shrink; eauto. }
      rewrite <- app_assoc in E3. rewrite app_length in E3. rewrite E3.
      exists s3, acc3, is3. repeat split; auto.
      now rewrite A3, <- app_assoc.
  Qed.
  Arguments collectn_loop_more {is fuel s} acc pre b {w'} extra {e} _ _ _ _.

  Lemma collectn_loop_last : forall is fuel s acc pre w extra rest e,
    coll_at s w is -> truthful SD (w ++ extra) rest e -> length (w ++ extra) < fuel ->
    exists s', collectn_loop D fuel (length is) s acc (length pre) (pre ++ w ++ extra) e
        = (mkCollectN s' 0 (acc ++ is), Ok (length (pre ++ w))) /\ P s'.
  Proof.
    induction is as [|i0 is IH]; intros fuel s acc pre w extra rest e C T F.
    { destruct (nil_or_not w) as [->|NE]; [|destruct (coll_nonnil C NE eq_refl)].
      destruct (coll_nil C) as [_ Ps]. cbn. rewrite !app_nil_r. eauto. }
    destruct (coll_mid C ltac:(discriminate)) as (w1 & w2 & i1 & is2 & -> & [= <- <-] & NE1 & H & SQ).
    pose proof (mid_not_idle NE1 H) as id.
    pose proof (length_nonnil NE1).
    cbn [collectn_loop length].
    replace (length pre <? _) with true by (rewrite !app_length; lia).
    unfold try_decode. rewrite id, slice_from_app. rewrite <- app_assoc in *.
    destruct (parses_last H id ltac:(congruence) T F) as (s' & -> & id' & H').
    cbn in id'. rewrite id'. destruct (parses_idle H' id') as (_ & _ & s'' & -> & PP).
    rewrite app_length in F.
    destruct (IH fuel s'' (acc ++ [i0]) (pre ++ w1) w2 extra rest e) as (s3 & E3 & PP3);
      try lia; auto.
    { left; auto. }
    { eapply truthful_shrink; eauto. }
    rewrite <- !app_assoc in E3. rewrite app_length in E3. rewrite E3. eauto.
  Qed.
  Arguments collectn_loop_last {is fuel s} acc pre {w} extra {rest e} _ _ _.

  Definition collectn_R (st : CollectN S I) (w : list byte) (is : list I) : Prop :=
    (len w <= isize_max)%N /\
    exists is', cn_remaining st = length is' /\
                cn_items st ++ is' = is /\ coll_at (cn_inner st) w is'.
  Lemma collectn_step : step_ok (collectn_decoder D) SD
    (fun st => P (cn_inner st) /\ cn_remaining st = 0 /\ cn_items st = []) collectn_R.
  Proof.
    clear - DEC NEF. unfold collectn_R. constructor.
    - intros ? ? ? (L & _); auto.
    - intros [s r acc] w is (L & is' & Er & Ei & C) id. cbn in *. subst. rewrite id.
      destruct is' as [|]; [|discriminate].
      destruct (nil_or_not w) as [->|NE]; [|destruct (coll_nonnil C NE eq_refl)].
      destruct (coll_nil C) as [_ Ps]. rewrite app_nil_r. eauto 10.
    - intros [s r acc] w is (L & is' & Er & Ei & C) id. cbn in *. subst. rewrite id.
      destruct (coll_mid C) as (w1 & w2 & i1 & is2 & -> & -> & NE1 & H & SQ).
      { intros ->; discriminate. }
      pose proof (parses_req H (mid_not_idle NE1 H)) as Q. 
      destruct (dec_req D s) as [[n| |]| | |]; cbn in Q |- *; auto.
      + destruct Q as [Q1 Q2]. rewrite len_app. split; [lia|]. intros N; destruct (NE1 (Q2 N)).
      + destruct w1; cbn; congruence.
    - intros [s r acc] is fuel buf w' extra e (L & is' & Er & Ei & C) id NE EX T F. cbn in *. subst.
      destruct (collectn_loop_more acc [] buf extra C NE T F) as (s3 & acc3 & is3 & E3 & A3 & C3).
      cbn in E3. rewrite E3. eexists; split; [reflexivity|]. cbn.
      rewrite len_app in L. split.
      + assert (is3 <> []) by (eapply coll_nonnil; eauto). destruct is3; [congruence|reflexivity].
      + split; [lia|]. eauto.
    - intros [s r acc] is fuel w extra rest e (L & is' & Er & Ei & C) id EX T F. cbn in *. subst.
      destruct (collectn_loop_last acc [] extra C T F) as (s3 & E3 & PP).
      cbn in E3. rewrite E3. eexists; split; [reflexivity|]. cbn. split; auto.
      split; [cbn; lia|]. exists []. rewrite app_nil_r. repeat split; auto.
      left; split; auto. exists []; auto.
  Qed.
  Lemma collectn_parses : forall s w is,
    P s -> (len w <= isize_max)%N -> seq_fmt w is ->
    parses (collectn_decoder D) SD
           (fun st => P (cn_inner st) /\ cn_remaining st = 0 /\ cn_items st = [])
           (collectn_new s (length is)) w is.
  Proof.
    intros s w is Ps L SQ. exists collectn_R. split; [apply collectn_step|].
    split; auto. exists is; split; auto. split; auto. left; auto.
  Qed.
End Coll.
