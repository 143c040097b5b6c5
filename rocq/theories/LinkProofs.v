(** * A sender and a receiver connected by a stream: the invariant. *)
From Coq Require Import Lia ZifyBool ZifyNat ZifyN.
From Verif Require Export Link.
From Verif Require Import IoProofs Lib DecPrim.
Set Implicit Arguments.

(** ** Plans *)
Lemma wr_write_plan : forall w d w' o, wr_write w d = (w', o) ->
  incl (wr_plan w') (wr_plan w) /\
  (forall e, o = inr e -> In (WrErr e) (wr_plan w)) /\
  (o = inl 0 -> d = [] \/ In WrZero (wr_plan w)).
Proof.
  intros [data plan] d w' o H. unfold wr_write in H. cbn [wr_plan wr_data] in *.
  destruct plan as [|[n| |e] p]; injection H as <- <-; cbn [wr_plan].
  - split; [apply incl_refl|]. split; [discriminate|]. intro X. injection X as X.
    left. destruct d; [reflexivity|discriminate X].
  - split; [apply incl_tl, incl_refl|]. split; [discriminate|]. intro X. injection X as X.
    left. destruct d; [reflexivity|cbn in X; lia].
  - split; [apply incl_tl, incl_refl|]. split; [discriminate|]. right. left. reflexivity.
  - split; [apply incl_tl, incl_refl|]. split; [|discriminate]. intros e' X. injection X as <-.
    left. reflexivity.
Qed.
Lemma writing_plan : forall w d rest w', writing w d rest w' -> incl (wr_plan w') (wr_plan w).
Proof.
  induction 1 as [|w data n w1 rest w' H W IH]. apply incl_refl.
  eapply incl_tran; [exact IH|]. apply (wr_write_plan _ _ H).
Qed.
Lemma rd_read_plan : forall r k r' o, rd_read r k = (r', o) ->
  incl (rd_plan r') (rd_plan r) /\ (forall e, o = inr e -> In (RdErr e) (rd_plan r)).
Proof.
  intros [data plan] k r' o H. unfold rd_read in H. cbn [rd_plan rd_data] in *.
  destruct plan as [|[n| |e] p]; injection H as <- <-; cbn [rd_plan];
    (split; [apply incl_tl, incl_refl || apply incl_refl|]); try discriminate.
  intros e' X. injection X as <-. left. reflexivity.
Qed.
Lemma reading_plan : forall r k d r', reading r k d r' -> incl (rd_plan r') (rd_plan r).
Proof.
  induction 1 as [|r room x data r1 more r' H R IH]. apply incl_refl.
  eapply incl_tran; [exact IH|]. apply (rd_read_plan _ _ H).
Qed.

Section Link.
Variables (Se Sd A : Type) (E : Encoder Se A) (D : Decoder Sd A).
Variables (F : format A) (Pe : Se -> Prop) (Pd : Sd -> Prop).
Variables (fuel wcap rcap : nat) (items : list A) (w0 : list byte) (i0 : A).
Hypothesis HD : decodes D SD F Pd Pd.
Hypothesis HB : forall s, Pd s -> dec_idle D s = false.
Hypothesis HR : rests E Pe.
Hypothesis HF : rcap < fuel.
Hypothesis H0 : F w0 i0 /\ w0 <> [].

Definition sends_as (w : list byte) (i : A) : Prop :=
  exists f1, f1 + wcap < fuel /\ forall s, Pe s -> accepts E f1 Pe s i w.
Definition ready (s : Sd) : Prop :=
  dec_idle D s = false /\ forall w i, F w i -> w <> [] -> parses D SD Pd s w i.

Definition pipe (l : link Se Sd A) (erest : list byte) (wt : list (list byte)) : list byte :=
  rb_content (l_rbuf l) ++ l_stream l ++ wb_content (l_wbuf l) ++ erest ++ concat wt.

Definition sender_ok (s : Se) (erest : list byte) : Prop :=
  if enc_idle E s then Pe s /\ erest = []
  else exists f1, f1 + wcap < fuel /\ emits E f1 Pe s erest.
Definition receiver_ok (s : Sd) (pend : list A) (str : list byte) : Prop :=
  match pend with
  | [] => str = [] /\ ready s
  | i :: is => exists drest ws,
      parses D SD Pd s drest i /\ dec_idle D s = false /\ drest <> [] /\
      Forall2 (fun w i => F w i /\ w <> []) ws is /\ str = drest ++ concat ws
  end.

Definition measure (l : link Se Sd A) (erest : list byte) (wt : list (list byte)) : nat :=
  4 * (length erest + length (concat wt)) + 3 * length (wb_content (l_wbuf l)) +
  2 * length (l_stream l) + length (rb_content (l_rbuf l)) + 2 * length (l_todo l) +
  (if enc_idle E (l_enc l) then 0 else 1).

Record inv (n : nat) (l : link Se Sd A) : Prop := {
  iv_ex : exists wt erest pend,
    Forall2 sends_as wt (l_todo l) /\ sender_ok (l_enc l) erest /\
    items = l_got l ++ pend /\ receiver_ok (l_dec l) pend (pipe l erest wt) /\
    (len (pipe l erest wt) <= u64_max)%N /\ n = measure l erest wt;
  iv_wb : wb_ok (l_wbuf l);
  iv_wcap : wb_capacity (l_wbuf l) = wcap;
  iv_wst : wb_state (l_wbuf l) <> StEos;
  iv_rb : rb_ok (l_rbuf l);
  iv_rcap : rb_capacity (l_rbuf l) = rcap;
  iv_eos : rb_state (l_rbuf l) = StEos ->
    l_todo l = [] /\ enc_idle E (l_enc l) = true /\ wb_content (l_wbuf l) = [] /\ l_stream l = []
}.

Lemma pd_ready : forall s, Pd s -> ready s.
Proof. intros s H. split; [auto|]. intros w i X _. apply HD; auto. Qed.

(** The item to come, if any, can be decoded from a state that is ready. *)
Lemma ready_receives : forall s is ws, ready s -> Forall2 (fun w i => F w i /\ w <> []) ws is ->
  receiver_ok s is (concat ws).
Proof.
  intros s is ws [ID P] H. destruct H as [|w i ws is [Fw Nw] H].
  - cbn. split; [reflexivity|]. split; assumption.
  - cbn [receiver_ok concat]. exists w, ws. auto 6.
Qed.

Lemma sender_emits : forall s f1 w, f1 + wcap < fuel -> emits E f1 Pe s w -> sender_ok s w.
Proof.
  intros s f1 w L EM. unfold sender_ok. destruct (enc_idle E s) eqn:ID.
  - destruct EM as (R & OK & HRw). destruct (eo_idle OK HRw ID). auto.
  - eauto.
Qed.

(** *** The encoder *)
Lemma encode_step : forall s erest buf, sender_ok s erest -> length buf <= wcap ->
  exists s' k, enc_encode E fuel s buf Unknown = (s', firstn k erest ++ skipn k buf, Ok k) /\
    k = Nat.min (length erest) (length buf) /\ sender_ok s' (skipn k erest) /\
    (enc_idle E s = true -> enc_idle E s' = true) /\
    (enc_idle E s = false -> 0 < length buf -> 0 < k \/ enc_idle E s' = true).
Proof.
  intros s erest buf H L. unfold sender_ok in H. destruct (enc_idle E s) eqn:ID.
  - destruct H as [P ->]. destruct (HR P) as (_ & _ & X).
    destruct (X fuel buf Unknown) as (s' & Y & P'); [lia|].
    exists s', 0. cbn. split; [exact Y|]. split; [reflexivity|].
    destruct (HR P') as (ID' & _). split; [unfold sender_ok; rewrite ID'; auto|]. auto.
  - destruct H as (f1 & LF & R & OK & X).
    destruct (Nat.le_gt_cases (length erest) (length buf)) as [LE|GT].
    + destruct (eo_last OK X ID LE (fuel := fuel) (e := Unknown)) as (s' & Y & ID' & X'); [lia|].
      exists s', (length erest). rewrite firstn_all, skipn_all. split; [exact Y|].
      split; [lia|]. split; [|auto].
      eapply sender_emits; [exact LF|]. exists R. auto.
    + rewrite <- (firstn_skipn (length buf) erest) in X.
      destruct (eo_more OK X ID (fuel := fuel) (buf := buf) (e := Unknown)) as (s' & Y & ID' & X').
      * rewrite firstn_length. lia.
      * intro Z. apply (f_equal (@length _)) in Z. rewrite skipn_length in Z. cbn in Z. lia.
      * reflexivity.
      * lia.
      * exists s', (length buf). rewrite skipn_all, app_nil_r. split; [exact Y|].
        split; [lia|]. split; [eapply sender_emits; [exact LF|]; exists R; auto|].
        split; [discriminate|]. lia.
Qed.

(** *** The decoder *)
Lemma decode_step : forall s pend buf more e, receiver_ok s pend (buf ++ more) ->
  (e = Unknown \/ e = Finite 0 /\ more = [] /\ buf <> []) -> (len (buf ++ more) <= u64_max)%N ->
  length buf <= rcap ->
  exists s' k, dec_decode D fuel s buf e = (s', Ok k) /\ k <= length buf /\ (buf <> [] -> 0 < k) /\
    ((dec_idle D s' = false /\ receiver_ok s' pend (skipn k buf ++ more)) \/
     (dec_idle D s' = true /\ buf <> [] /\ exists i pend' s2, pend = i :: pend' /\ dec_finish D s' = (s2, Ok i) /\
        receiver_ok s2 pend' (skipn k buf ++ more))).
Proof.
  intros s pend buf more e H HE LN LB. destruct pend as [|i is]; cbn [receiver_ok] in H.
  - destruct H as [X [ID P]]. apply app_eq_nil in X. destruct X as [-> ->].
    destruct HE as [->|(_ & _ & Z)]; [|congruence]. destruct H0 as [F0 N0].
    destruct (P _ _ F0 N0) as (R0 & OK0 & X0).
    destruct (so_more OK0 (buf := []) (w' := w0) (extra := []) (e := Unknown) (fuel := fuel) X0 ID N0)
      as (s' & Y & ID' & X'); [congruence|left; reflexivity|cbn; lia|].
    exists s', 0. cbn. split; [exact Y|]. split; [lia|]. split; [congruence|]. left.
    split; [exact ID'|]. split; [reflexivity|]. split; [exact ID'|]. intros w i Fw Nw.
    destruct (P _ _ Fw Nw) as (R & OK & XR).
    destruct (so_more OK (buf := []) (w' := w) (extra := []) (e := Unknown) (fuel := fuel) XR ID Nw)
      as (s1 & Y1 & ID1 & X1); [congruence|left; reflexivity|cbn; lia|].
    rewrite Y1 in Y. injection Y as ->. exists R. auto.
  - destruct H as (drest & ws & (R & OK & X) & ID & ND & HW & Q).
    destruct (Nat.le_gt_cases (length drest) (length buf)) as [LE|GT].
    + assert (exists extra, buf = drest ++ extra /\ concat ws = extra ++ more) as (extra & Q1 & Q2).
      { exists (skipn (length drest) buf).
        assert (Q1 : buf = drest ++ skipn (length drest) buf).
        { rewrite <- (firstn_skipn (length drest) buf) at 1. f_equal.
          apply (f_equal (firstn (length drest))) in Q. rewrite firstn_app in Q.
          replace (length drest - length buf) with 0 in Q by lia. cbn [firstn] in Q.
          rewrite app_nil_r, firstn_app_exact in Q. exact Q. }
        split; [exact Q1|]. rewrite Q1, <- app_assoc in Q. apply app_inv_head in Q. auto. }
      subst buf.
      destruct (so_last OK (extra := extra) (rest := more) (e := e) (fuel := fuel) X ID)
        as (s' & Y & ID' & X').
      * congruence.
      * destruct HE as [->|(-> & -> & _)]; [left; reflexivity|]. right. left.
        rewrite app_nil_r in LN. unfold len at 1. cbn. split; [reflexivity|].
        rewrite N.add_0_r. exact LN.
      * lia.
      * cbn [done_idle] in ID'. destruct (so_idle OK X' ID') as (_ & _ & s2 & Z & P2).
        exists s', (length drest). split; [exact Y|]. split; [rewrite app_length; lia|].
        split; [intros _; destruct drest; [congruence|cbn; lia]|]. right. split; [exact ID'|].
        split; [destruct drest; [congruence|discriminate]|]. exists i, is, s2. split; [reflexivity|]. split; [exact Z|].
        rewrite skipn_app_exact, <- Q2. apply ready_receives; [apply pd_ready; exact P2|exact HW].
    + assert (exists w', drest = buf ++ w' /\ more = w' ++ concat ws) as (w' & Q1 & Q2).
      { exists (skipn (length buf) drest).
        assert (Q1 : drest = buf ++ skipn (length buf) drest).
        { rewrite <- (firstn_skipn (length buf) drest) at 1. f_equal.
          apply (f_equal (firstn (length buf))) in Q. rewrite firstn_app_exact in Q.
          rewrite firstn_app in Q. replace (length buf - length drest) with 0 in Q by lia.
          cbn [firstn] in Q. rewrite app_nil_r in Q. auto. }
        split; [exact Q1|]. rewrite Q1, <- app_assoc in Q. apply app_inv_head in Q. auto. }
      subst drest. assert (NW : w' <> []).
      { intros ->. rewrite app_nil_r in GT. lia. }
      destruct (so_more OK (extra := concat ws) (e := e) (fuel := fuel) X ID NW) as (s' & Y & ID' & X').
      * congruence.
      * destruct HE as [->|(-> & -> & _)]; [left; reflexivity|].
        destruct w'; [congruence|discriminate Q2].
      * lia.
      * exists s', (length buf). split; [exact Y|]. split; [lia|].
        split; [intro Z; destruct buf; [congruence|cbn; lia]|]. left. split; [exact ID'|].
        rewrite skipn_all. cbn [app]. exists w', ws. split; [exists R; auto|]. auto.
Qed.

(** *** Every action *)
Definition outcome_ok (a : action) (r : res unit) : Prop :=
  r = Ok tt \/ exists e, stream_error a e /\ r = Err (reported_kind e).

Ltac fields := cbn [l_todo l_enc l_wbuf l_stream l_rbuf l_dec l_got] in *.

Lemma start_step : forall n l l' r, inv n l -> act E D fuel AStart l = Some (l', r) ->
  outcome_ok AStart r /\ exists n', inv n' l' /\ n' < n.
Proof.
  intros n [todo enc wb str rb dec got] l' r [EX WB WC WS RB RC EO] H. fields.
  destruct EX as (wt & erest & pend & HT & HS & HI & HRc & HL & ->). fields.
  cbn [act l_todo l_enc l_wbuf l_stream l_rbuf l_dec l_got] in H.
  destruct todo as [|i todo]; [discriminate H|].
  destruct (enc_idle E enc) eqn:ID; [|discriminate H].
  inversion HT as [|w i' wt' todo' (f1 & LF & AC) HT' Q1 Q2]; subst.
  unfold sender_ok in HS. rewrite ID in HS. destruct HS as [P ->].
  destruct (AC enc P fuel) as (s' & ST & EM); [lia|]. rewrite ST in H. injection H as <- <-.
  split; [left; reflexivity|].
  eexists. split.
  - constructor; fields; try assumption; [|intro X; destruct (EO X) as (Z & _); discriminate Z].
    exists wt', w, pend. fields. split; [exact HT'|].
    split; [eapply sender_emits; eassumption|]. split; [exact HI|].
    split; [|split; [|reflexivity]]; unfold pipe in *; fields; cbn [concat app] in *; assumption.
  - unfold measure. fields. rewrite ID. cbn [concat length]. rewrite app_length.
    destruct (enc_idle E s'); lia.
Qed.

Lemma encode_act : forall n l l' r, inv n l -> act E D fuel AEncode l = Some (l', r) ->
  r = Ok tt /\ (exists n', inv n' l' /\ n' <= n /\ (moves E l l' -> n' < n)) /\
  (enc_idle E (l_enc l) = false -> wb_content (l_wbuf l) = [] -> 0 < wcap -> moves E l l').
Proof.
  intros n [todo enc wb str rb dec got] l' r [EX WB WC WS RB RC EO] H. fields.
  destruct EX as (wt & erest & pend & HT & HS & HI & HRc & HL & ->). fields.
  cbn [act l_todo l_enc l_wbuf l_stream l_rbuf l_dec l_got] in H.
  destruct (encode_to_write_buf E fuel enc wb) as [[s' wb'] x] eqn:X.
  destruct (encode_buf_spec _ _ _ WB X) as (d' & rr & E1 & I' & H' & S' & K' & E2).
  pose proof (indices_le WB) as LE. pose proof WB as [L HTl].
  assert (LB : length (skipn (wb_tail wb) (wb_inner wb)) = wcap - wb_tail wb).
  { rewrite skipn_length. unfold wb_capacity in WC. lia. }
  replace (eos_new (st_is_eos (wb_state wb))) with Unknown in E1
    by (destruct (wb_state wb); try reflexivity; congruence).
  destruct (@encode_step enc erest (skipn (wb_tail wb) (wb_inner wb)) HS) as (s1 & k & Y & Kk & HS' & ID1 & ID2);
    [lia|].
  rewrite E1 in Y. injection Y as -> -> ->. destruct E2 as [-> E2]. injection H as <- <-.
  split; [reflexivity|].
  assert (LK : k <= length erest /\ k <= wcap - wb_tail wb) by lia.
  assert (LD : length (firstn k erest ++ skipn k (skipn (wb_tail wb) (wb_inner wb))) = wcap - wb_tail wb).
  { rewrite app_length, firstn_length, skipn_length, LB. lia. }
  assert (C' : wb_content wb' = wb_content wb ++ firstn k erest).
  { unfold wb_content. rewrite I', H', E2, stretch_tail_push by lia. f_equal.
    rewrite firstn_app, firstn_firstn, Nat.min_id, firstn_length.
    replace (k - Nat.min k (length erest)) with 0 by lia. cbn [firstn]. apply app_nil_r. }
  assert (CL : length (wb_inner wb') = length (wb_inner wb)).
  { rewrite I', app_length, firstn_length, LD. unfold wb_capacity in WC. lia. }
  assert (OK' : wb_ok wb').
  { unfold wb_ok, indices_ok. rewrite CL, H', E2. unfold wb_capacity in WC. lia. }
  assert (NM : measure (mkLink todo s1 wb' str rb dec got) (skipn k erest) wt + k +
               (if enc_idle E enc then 0 else 1) <=
               measure (mkLink todo enc wb str rb dec got) erest wt + (if enc_idle E s1 then 0 else 1)).
  { unfold measure. fields. rewrite C', app_length, firstn_length, skipn_length. lia. }
  split.
  - exists (measure (mkLink todo s1 wb' str rb dec got) (skipn k erest) wt).
    split; [|split].
    + constructor; fields.
      * exists wt, (skipn k erest), pend. fields. split; [exact HT|]. split; [exact HS'|].
        split; [exact HI|]. unfold pipe in *. fields. rewrite C'.
        assert (Q : (wb_content wb ++ firstn k erest) ++ skipn k erest ++ concat wt =
                    wb_content wb ++ erest ++ concat wt).
        { rewrite <- app_assoc. f_equal. rewrite app_assoc, firstn_skipn. reflexivity. }
        rewrite Q. auto.
      * exact OK'.
      * unfold wb_capacity in *. congruence.
      * congruence.
      * exact RB.
      * exact RC.
      * intro Z. destruct (EO Z) as (Z1 & Z2 & Z3 & Z4). split; [exact Z1|]. split; [auto|].
        split; [|exact Z4]. unfold sender_ok in HS. rewrite Z2 in HS. destruct HS as [_ ->].
        rewrite C', Z3, firstn_nil. reflexivity.
    + destruct (enc_idle E enc) eqn:IE, (enc_idle E s1) eqn:IS;
        try discriminate (ID1 eq_refl); lia.
    + intro MV. unfold moves in MV. fields.
      assert (Z : 0 < k \/ enc_idle E s1 <> enc_idle E enc).
      { destruct MV as [Z|[Z|[Z|[Z|Z]]]]; try congruence; auto.
        left. destruct k; [|lia]. cbn [firstn] in C'. rewrite app_nil_r in C'. congruence. }
      destruct (enc_idle E enc) eqn:IE, (enc_idle E s1) eqn:IS;
        try discriminate (ID1 eq_refl); destruct Z as [Z|Z]; try congruence; lia.
  - intros IE CE PC. unfold moves. fields.
    assert (T0 : wb_tail wb = 0).
    { apply (content_empty WB) in CE. apply Nat.eqb_eq. exact CE. }
    destruct (ID2 IE) as [Z|Z]; [lia| |].
    + right. right. left. rewrite C'. intro Q. apply (f_equal (@length _)) in Q.
      rewrite app_length, firstn_length in Q. lia.
    + right. left. congruence.
Qed.

Lemma existsb_zero : forall plan,
  existsb (fun p => match p with WrZero => true | _ => false end) plan = false -> ~ In WrZero plan.
Proof.
  intros plan H I. assert (X : existsb (fun p => match p with WrZero => true | _ => false end) plan = true).
  { apply existsb_exists. exists WrZero. auto. }
  congruence.
Qed.

Lemma flush_act : forall n l l' r plan, inv n l -> act E D fuel (AFlush plan) l = Some (l', r) ->
  outcome_ok (AFlush plan) r /\ (exists n', inv n' l' /\ n' <= n /\ (moves E l l' -> n' < n)) /\
  (wb_content (l_wbuf l) <> [] -> plan = [] -> r = Ok tt /\ moves E l l').
Proof.
  intros n [todo enc wb str rb dec got] l' r plan [EX WB WC WS RB RC EO] H. fields.
  destruct EX as (wt & erest & pend & HT & HS & HI & HRc & HL & ->). fields.
  cbn [act l_todo l_enc l_wbuf l_stream l_rbuf l_dec l_got] in H.
  destruct (existsb (fun p => match p with WrZero => true | _ => false end) plan) eqn:NZ; [discriminate H|].
  apply existsb_zero in NZ.
  destruct (wb_flush wb (mkWriter str plan)) as [[[wb' w'] x] k] eqn:X.
  destruct (flush_spec _ WB X) as [(rest & w1 & WR & OK' & I' & C' & _ & Cases) _].
  injection H as <- <-.
  destruct (writing_data WR) as [WD WL]. pose proof (writing_plan WR) as WP. cbn [wr_data wr_plan] in WD, WP.
  assert (R : wr_data w' = wr_data w1 /\ wb_state wb' <> StEos /\ outcome_ok (AFlush plan) x /\
              (plan = [] -> rest = [] /\ x = Ok tt)).
  { destruct Cases as [(R1 & -> & -> & R4)|(R1 & o & e & R2 & R3 & R4 & R5)].
    - split; [reflexivity|]. split; [|split; [left; reflexivity|auto]].
      rewrite R4. destruct (wb_content wb); [exact WS|discriminate].
    - destruct (wr_write_plan _ _ R2) as (P1 & P2 & P3).
      pose proof (wr_write_data _ _ R2) as P4.
      destruct o as [[|m]|ioe]; cbn in R3; try discriminate R3.
      + destruct (P3 eq_refl) as [Z|Z]; [congruence|]. elim NZ. apply WP. exact Z.
      + pose proof (P2 _ eq_refl) as P5. split; [exact P4|].
        assert (Z : plan = [] -> rest = [] /\ x = Ok tt).
        { intros ->. elim (WP _ P5). }
        split; [rewrite R5; destruct ioe; injection R3 as <-; discriminate|].
        split; [|exact Z]. rewrite R4. clear Z R4 R5. destruct ioe; injection R3 as <-; cbn.
        * left; reflexivity.
        * right. exists IoUnexpectedEof. split; [apply WP; exact P5|reflexivity].
        * right. exists IoInterrupted. split; [apply WP; exact P5|reflexivity].
        * right. exists IoOther. split; [apply WP; exact P5|reflexivity]. }
  destruct R as (R1 & R2 & R3 & R4). split; [exact R3|].
  assert (LL : length (wr_data w') + length rest = length str + length (wb_content wb)).
  { rewrite R1. apply (f_equal (@length _)) in WD. rewrite !app_length in WD. exact WD. }
  split.
  - exists (measure (mkLink todo enc wb' (wr_data w') rb dec got) erest wt). split; [|split].
    + constructor; fields.
      * exists wt, erest, pend. fields. split; [exact HT|]. split; [exact HS|].
        split; [exact HI|]. unfold pipe in *. fields. rewrite C', R1.
        assert (Q : wr_data w1 ++ rest ++ erest ++ concat wt = str ++ wb_content wb ++ erest ++ concat wt).
        { rewrite !app_assoc. do 2 f_equal. rewrite <- WD. reflexivity. }
        rewrite Q. auto.
      * exact OK'.
      * unfold wb_capacity in *. congruence.
      * exact R2.
      * exact RB.
      * exact RC.
      * intro Z. destruct (EO Z) as (Z1 & Z2 & Z3 & Z4). split; [exact Z1|]. split; [exact Z2|].
        rewrite Z3, Z4 in *. cbn [length] in LL. rewrite C'.
        split; [destruct rest; [reflexivity|cbn in LL; lia]|].
        destruct (wr_data w'); [reflexivity|cbn in LL; lia].
    + unfold measure. fields. rewrite C'. lia.
    + intro MV. unfold measure. fields. rewrite C'.
      assert (Z : length rest <> length (wb_content wb)).
      { intro Q. unfold moves in MV. fields. rewrite C', R1 in MV.
        assert (Q1 : rest = wb_content wb /\ wr_data w1 = str).
        { assert (length (wr_data w1) = length str) by (rewrite <- R1; lia).
          apply app_inj_len in WD; [|assumption]. tauto. }
        destruct Q1 as [Q1 Q2]. destruct MV as [M|[M|[M|[M|M]]]]; congruence. }
      lia.
  - intros NE PE. destruct (R4 PE) as [-> ->]. split; [reflexivity|].
    right. right. left. fields. congruence.
Qed.

Lemma fill_act : forall n l l' r plan, inv n l -> act E D fuel (AFill plan) l = Some (l', r) ->
  outcome_ok (AFill plan) r /\ (exists n', inv n' l' /\ n' <= n /\ (moves E l l' -> n' < n)).
Proof.
  intros n [todo enc wb str rb dec got] l' r plan [EX WB WC WS RB RC EO] H. fields.
  destruct EX as (wt & erest & pend & HT & HS & HI & HRc & HL & ->). fields.
  cbn [act l_todo l_enc l_wbuf l_stream l_rbuf l_dec l_got] in H.
  destruct (rb_fill rb (mkReader str plan)) as [[rb' r'] x] eqn:X.
  destruct (fill_spec _ RB X) as (data & r1 & RD & OK' & C' & N' & _ & Cases).
  pose proof (reading_data RD) as DD. pose proof (reading_plan RD) as PP. cbn [rd_data rd_plan] in DD, PP.
  assert (R : rd_data r1 = rd_data r' /\ outcome_ok (AFill plan) x).
  { destruct Cases as [(_ & -> & -> & _)|(_ & o & e & R1 & E1 & -> & _)].
    - split; [reflexivity|left; reflexivity].
    - destruct (rd_read_data _ _ R1) as [E2 _]. destruct (rd_read_plan _ _ R1) as [_ P2].
      destruct o as [[|]|ioe]; cbn in E1; try discriminate E1; cbn in E2; (split; [exact E2|]).
      + injection E1 as <-. left; reflexivity.
      + specialize (P2 _ eq_refl). destruct ioe; injection E1 as <-; cbn.
        * left; reflexivity.
        * right. exists IoUnexpectedEof. split; [apply PP; exact P2|reflexivity].
        * right. exists IoInterrupted. split; [apply PP; exact P2|reflexivity].
        * right. exists IoOther. split; [apply PP; exact P2|reflexivity]. }
  destruct R as [R1 R2].
  set (sent := match todo with [] => match rd_data r' with [] => enc_idle E enc && wb_is_empty wb | _ => false end | _ => false end) in H.
  destruct (st_is_eos (rb_state rb') && negb sent) eqn:AL; [discriminate H|].
  injection H as <- <-. split; [exact R2|].
  assert (LL : length data + length (rd_data r') = length str).
  { rewrite DD, app_length, R1. reflexivity. }
  exists (measure (mkLink todo enc wb (rd_data r') rb' dec got) erest wt). split; [|split].
  - constructor; fields; try assumption; [|congruence|].
    + exists wt, erest, pend. fields. split; [exact HT|]. split; [exact HS|]. split; [exact HI|].
      unfold pipe in *. fields. rewrite N', <- R1.
      assert (Q : (rb_content rb ++ data) ++ rd_data r1 ++ wb_content wb ++ erest ++ concat wt =
                  rb_content rb ++ str ++ wb_content wb ++ erest ++ concat wt).
      { rewrite DD, <- !app_assoc. reflexivity. }
      rewrite Q. auto.
    + intro Z. rewrite Z in AL. cbn [st_is_eos andb] in AL. apply Bool.negb_false_iff in AL.
      unfold sent in AL. destruct todo; [|discriminate AL]. destruct (rd_data r'); [|discriminate AL].
      apply andb_true_iff in AL. destruct AL as [A1 A2]. split; [reflexivity|]. split; [exact A1|].
      split; [|reflexivity]. apply (content_empty WB). exact A2.
  - unfold measure. fields. rewrite N', app_length. lia.
  - intro MV. unfold measure. fields. rewrite N', app_length.
    assert (Z : 0 < length data).
    { destruct data; [|cbn; lia]. cbn [app] in DD. rewrite app_nil_r in N'.
      unfold moves in MV. fields. rewrite N', <- R1, DD in MV.
      destruct MV as [M|[M|[M|[M|M]]]]; congruence. }
    lia.
Qed.

Lemma decode_act : forall n l l' r, inv n l -> act E D fuel ADecode l = Some (l', r) ->
  r = Ok tt /\ (exists n', inv n' l' /\ n' <= n /\ (moves E l l' -> n' < n)) /\
  (rb_content (l_rbuf l) <> [] -> moves E l l') /\
  (exists news, l_got l' = l_got l ++ news /\ (news <> [] -> moves E l l')).
Proof.
  intros n [todo enc wb str rb dec got] l' r [EX WB WC WS RB RC EO] H. fields.
  destruct EX as (wt & erest & pend & HT & HS & HI & HRc & HL & ->). fields.
  cbn [act l_todo l_enc l_wbuf l_stream l_rbuf l_dec l_got] in H.
  destruct (st_is_eos (rb_state rb) && rb_is_empty rb) eqn:AL; [discriminate H|].
  destruct (decode_from_read_buf D fuel dec rb) as [[s' rb'] x] eqn:X.
  destruct (decode_buf_spec _ _ _ RB X) as (rr & E1 & E2).
  assert (LB : length (rb_content rb) <= rcap).
  { unfold rb_content. rewrite stretch_length by apply RB. pose proof RB as [L _].
    unfold rb_capacity in RC. lia. }
  unfold pipe in HRc, HL. fields.
  destruct (@decode_step dec pend (rb_content rb) (str ++ wb_content wb ++ erest ++ concat wt)
              (eos_new (st_is_eos (rb_state rb))) HRc) as (s1 & k & Y & LK & PK & Cases);
    [|exact HL|exact LB|].
  { destruct (rb_state rb) eqn:ST; try (left; reflexivity). right. cbn.
    destruct (EO eq_refl) as (Z1 & Z2 & Z3 & Z4). subst todo.
    inversion HT; subst. unfold sender_ok in HS. rewrite Z2 in HS. destruct HS as [_ ->].
    rewrite Z3. cbn. split; [reflexivity|]. split; [reflexivity|].
    intro Z. cbn in AL. apply (content_empty RB) in Z. unfold rb_is_empty in AL. congruence. }
  rewrite E1 in Y. injection Y as -> ->. destruct E2 as [-> ->].
  destruct (consume_ok RB LK) as (OK' & C' & CC & SS).
  set (more := str ++ wb_content wb ++ erest ++ concat wt) in *.
  assert (LM : (len (skipn k (rb_content rb) ++ more) <= u64_max)%N).
  { rewrite len_app in *. unfold len in *. rewrite skipn_length. lia. }
  assert (RM : forall pend' got' d', receiver_ok d' pend' (skipn k (rb_content rb) ++ more) ->
     items = got' ++ pend' ->
     let l1 := mkLink todo enc wb str (rb_consume rb k) d' got' in
     (exists n', inv n' l1 /\ n' <= measure (mkLink todo enc wb str rb dec got) erest wt /\
        (moves E (mkLink todo enc wb str rb dec got) l1 ->
           n' < measure (mkLink todo enc wb str rb dec got) erest wt)) /\
     (rb_content rb <> [] -> moves E (mkLink todo enc wb str rb dec got) l1)).
  { intros pend' got' d' HV HG l1. split.
    - exists (measure l1 erest wt). split; [|split].
      + constructor; unfold l1; fields; try assumption; try congruence.
        * exists wt, erest, pend'. fields. split; [exact HT|]. split; [exact HS|]. split; [exact HG|].
          unfold pipe. fields. fold more. rewrite C'. auto.
        * rewrite SS. exact EO.
      + unfold measure, l1. fields. rewrite C', skipn_length. lia.
      + intro MV. unfold moves, l1 in MV. fields. unfold measure, l1. fields.
        assert (0 < k).
        { destruct k; [|lia]. rewrite C' in MV. cbn [skipn] in MV.
          destruct MV as [M|[M|[M|[M|M]]]]; congruence. }
        rewrite C', skipn_length. lia.
    - intro NE. right. right. right. right. unfold l1. fields. rewrite C'. specialize (PK NE).
      intro Q. apply (f_equal (@length _)) in Q. rewrite skipn_length in Q. lia. }
  destruct Cases as [(ID & HV)|(ID & NB & i & pend' & s2 & -> & FI & HV)].
  - rewrite ID in H. injection H as <- <-. split; [reflexivity|].
    destruct (RM _ _ _ HV HI) as [A1 A2]. split; [exact A1|]. split; [exact A2|].
    exists []. fields. split; [symmetry; apply app_nil_r|congruence].
  - rewrite ID, FI in H. injection H as <- <-. split; [reflexivity|].
    destruct (RM pend' (got ++ [i]) s2 HV) as [A1 A2].
    { rewrite <- app_assoc. exact HI. }
    split; [exact A1|]. split; [exact A2|]. exists [i]. auto.
Qed.

Lemma any_act : forall n l a l' r, inv n l -> act E D fuel a l = Some (l', r) ->
  outcome_ok a r /\ exists n', inv n' l' /\ n' <= n /\ (moves E l l' -> n' < n).
Proof.
  intros n l a l' r IV H. destruct a.
  - destruct (start_step IV H) as [A1 (n' & A2 & A3)]. split; [exact A1|]. exists n'. split; [exact A2|]. lia.
  - destruct (encode_act IV H) as (-> & A2 & _). split; [left; reflexivity|exact A2].
  - destruct (flush_act _ IV H) as (A1 & A2 & _). auto.
  - exact (fill_act _ IV H).
  - destruct (decode_act IV H) as (-> & A2 & _). split; [left; reflexivity|exact A2].
Qed.

Lemma reaches_inv : forall n0 l0 k l, inv n0 l0 -> reaches E D fuel l0 k l ->
  exists n, inv n l /\ k + n <= n0.
Proof.
  intros n0 l0 k l I0 H. induction H as [|k l a l' r H (n & IV & LE) X|k l a l' r H (n & IV & LE) X MV].
  - exists n0. split; [exact I0|lia].
  - destruct (any_act _ IV X) as (_ & n' & IV' & L' & _). exists n'. split; [exact IV'|lia].
  - destruct (any_act _ IV X) as (_ & n' & IV' & _ & M). specialize (M MV). exists n'.
    split; [exact IV'|lia].
Qed.

(** Nothing on its way: everything has arrived. *)
Lemma quiet_done : forall n l, inv n l -> l_todo l = [] -> enc_idle E (l_enc l) = true ->
  wb_content (l_wbuf l) = [] -> l_stream l = [] -> rb_content (l_rbuf l) = [] -> l_got l = items.
Proof.
  intros n l [EX WB WC WS RB RC EO] Q1 Q2 Q3 Q4 Q5.
  destruct EX as (wt & erest & pend & HT & HS & HI & HRc & _).
  rewrite Q1 in HT. inversion HT; subst. unfold sender_ok in HS. rewrite Q2 in HS. destruct HS as [_ ->].
  unfold pipe in HRc. rewrite Q3, Q4, Q5 in HRc. cbn in HRc.
  destruct pend as [|i is]; [rewrite app_nil_r; reflexivity|].
  destruct HRc as (drest & ws & _ & _ & ND & _ & Q). destruct drest; [congruence|discriminate Q].
Qed.

(** As long as something is missing, some action gets it on its way. *)
Lemma no_deadlock : forall n l, inv n l -> 0 < wcap -> 0 < rcap -> l_got l <> items ->
  exists a l', act E D fuel a l = Some (l', Ok tt) /\ moves E l l'.
Proof.
  intros n l IV PW PR NG.
  destruct (nil_or_not (rb_content (l_rbuf l))) as [CR|CR].
  2:{ exists ADecode. destruct (act E D fuel ADecode l) as [[l' r]|] eqn:X.
      - destruct (decode_act IV X) as (-> & _ & MV & _). exists l'. auto.
      - exfalso. cbn [act] in X.
        destruct (st_is_eos (rb_state (l_rbuf l)) && rb_is_empty (l_rbuf l)) eqn:AL.
        + apply andb_true_iff in AL. destruct AL as [_ AL]. apply (content_empty (iv_rb IV)) in AL.
          apply CR. exact AL.
        + destruct (decode_from_read_buf D fuel (l_dec l) (l_rbuf l)) as [[s' rb'] [|?| |]];
            try discriminate X. destruct (dec_idle D s'); [|discriminate X].
          destruct (dec_finish D s') as [s2 [|?| |]]; discriminate X. }
  destruct (nil_or_not (l_stream l)) as [CS|CS].
  2:{ set (plan := [RdSome 0; RdErr IoWouldBlock]). exists (AFill plan).
      destruct l as [todo enc wb str rb dec got]. fields.
      cbn [act l_todo l_enc l_wbuf l_stream l_rbuf l_dec l_got].
      destruct (rb_fill rb (mkReader str plan)) as [[rb' r'] x] eqn:X.
      pose proof (iv_rb IV) as RB. pose proof (iv_rcap IV) as RC. fields.
      destruct (fill_spec _ RB X) as (data & r1 & RD & OK' & C' & N' & _ & Cases).
      assert (T0 : rb_tail rb = 0).
      { apply Nat.eqb_eq. apply (content_empty RB). exact CR. }
      rewrite T0, Nat.sub_0_r in *.
      destruct str as [|y str]; [congruence|].
      assert (R : data = [y] /\ r1 = mkReader str [RdErr IoWouldBlock]).
      { inversion RD as [Z|? ? ? ? r2 more ? Z1 Z2]; subst.
        - exfalso. cbn [length] in Cases. destruct Cases as [(Z & _)|(_ & o & e & Z1 & Z2 & _)]; [lia|].
          rewrite Nat.sub_0_r in Z1. unfold rd_read, plan in Z1. cbn [rd_plan rd_data] in Z1.
          rewrite Nat.min_r in Z1 by lia. cbn in Z1. injection Z1 as <- <-. discriminate Z2.
        - unfold rd_read, plan in Z1. cbn [rd_plan rd_data] in Z1.
          rewrite Nat.min_r in Z1 by lia. cbn in Z1. injection Z1 as <- <- <-.
          inversion Z2 as [Y|? ? ? ? r3 more' ? Y1 Y2]; subst; [split; reflexivity|].
          unfold rd_read in Y1. cbn in Y1. discriminate Y1. }
      destruct R as [-> ->].
      assert (R : x = Ok tt /\ st_is_eos (rb_state rb') = false /\ rd_data r' = str).
      { destruct Cases as [(_ & -> & -> & Z)|(_ & o & e & Z1 & Z2 & -> & Z3)].
        - rewrite Z. auto.
        - unfold rd_read in Z1. cbn in Z1. injection Z1 as <- <-. cbn in Z2. injection Z2 as <-.
          rewrite Z3. auto. }
      destruct R as (-> & -> & ->). cbn [andb]. eexists. split; [reflexivity|].
      right. right. right. right. fields. rewrite N', CR. discriminate. }
  destruct (nil_or_not (wb_content (l_wbuf l))) as [CW|CW].
  2:{ exists (AFlush []). destruct (act E D fuel (AFlush []) l) as [[l' r]|] eqn:X.
      - destruct (flush_act _ IV X) as (_ & _ & MV). destruct (MV CW eq_refl) as [-> M]. eauto.
      - exfalso. cbn [act existsb] in X.
        destruct (wb_flush (l_wbuf l) (mkWriter (l_stream l) [])) as [[[? ?] ?] ?]. discriminate X. }
  destruct (enc_idle E (l_enc l)) eqn:ID.
  2:{ exists AEncode. destruct (act E D fuel AEncode l) as [[l' r]|] eqn:X.
      - destruct (encode_act IV X) as (-> & _ & MV). exists l'. split; [reflexivity|]. auto.
      - exfalso. cbn [act] in X.
        destruct (encode_to_write_buf E fuel (l_enc l) (l_wbuf l)) as [[? ?] ?]. discriminate X. }
  destruct (l_todo l) as [|i todo] eqn:TD.
  - elim NG. eapply quiet_done; eassumption.
  - exists AStart. destruct (act E D fuel AStart l) as [[l' r]|] eqn:X.
    + destruct (start_step IV X) as ([->|(e & [] & _)] & _). exists l'. split; [reflexivity|].
      cbn [act] in X. rewrite TD, ID in X. destruct (enc_start E fuel (l_enc l) i) as [s' r'].
      injection X as <- _. left. fields. intro Q. rewrite TD in Q. apply (f_equal (@length _)) in Q.
      cbn in Q. lia.
    + exfalso. cbn [act] in X. rewrite TD, ID in X.
      destruct (enc_start E fuel (l_enc l) i). discriminate X.
Qed.
End Link.
