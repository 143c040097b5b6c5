(** * C99: a task that sends messages to an asynchronous connection. *)
From Coq Require Import Lia ZifyBool ZifyNat ZifyN.
From Verif Require Import Task LinkProofs Universe UniverseProofs CodecProofs Examples IoProofs Lib Props_Io Props_Link.
Set Implicit Arguments.

Lemma poll_write_plan : forall w d w' o, poll_write w d = (w', o) ->
  exists u1, aw_plan w = u1 ++ aw_plan w' /\ (o = Pending -> u1 = [None]).
Proof.
  intros [dt [|[x|] p]] d w' o H; unfold poll_write in H; cbn [aw_plan aw_data] in H.
  - destruct (wr_write (mkWriter dt []) d) as [r1 o1]. injection H as <- <-. exists []. split; [reflexivity|discriminate].
  - destruct (wr_write (mkWriter dt [x]) d) as [r1 o1]. injection H as <- <-. exists [Some x]. split; [reflexivity|discriminate].
  - injection H as <- <-. exists [None]. auto.
Qed.

Lemma poll_flush_used : forall fuel b w b' w' p, wb_poll_flush_loop fuel b w = (b', w', p) ->
  exists used, aw_plan w = used ++ aw_plan w' /\ (p = Pending -> exists u', used = u' ++ [None]).
Proof.
  induction fuel as [|fuel IH]; intros b w b' w' p H; cbn [wb_poll_flush_loop] in H; destruct (wb_is_empty b);
    try (injection H as <- <- <-; exists []; split; [reflexivity|discriminate]).
  destruct (window (wb_inner b) (wb_head b) (wb_tail b)) as [d|];
    [|injection H as <- <- <-; exists []; split; [reflexivity|discriminate]].
  destruct (poll_write w d) as [w1 o] eqn:PR. destruct (poll_write_plan _ _ PR) as (u1 & Q & UP).
  destruct o as [|[[|n]|e]].
  - injection H as <- <- <-. exists u1. split; [exact Q|]. intros _. exists []. auto.
  - injection H as <- <- <-. exists u1. split; [exact Q|discriminate].
  - destruct (IH _ _ _ _ _ H) as (u2 & Q2 & UP2). exists (u1 ++ u2). rewrite Q, Q2, app_assoc. split; [reflexivity|].
    intro Z. destruct (UP2 Z) as (u' & ->). exists (u1 ++ u'). now rewrite app_assoc.
  - injection H as <- <- <-. exists u1. split; [exact Q|discriminate].
Qed.

Lemma poll_flush_ready : forall fuel b w b' w' x, wb_poll_flush_loop fuel b w = (b', w', Ready (Ok x)) ->
  wb_is_empty b' = true \/ wb_state b' = StEos.
Proof.
  induction fuel as [|fuel IH]; intros b w b' w' p H; cbn [wb_poll_flush_loop] in H; destruct (wb_is_empty b) eqn:EM;
    try (injection H as <- <- <-; auto); try discriminate.
  destruct (window (wb_inner b) (wb_head b) (wb_tail b)) as [d|]; [|discriminate].
  destruct (poll_write w d) as [w1 [|[[|n]|e]]]; try discriminate.
  - injection H as <- <- <-. auto.
  - eapply IH. exact H.
Qed.

Lemma wpendings_app : forall a b, wpendings (a ++ b) = wpendings a + wpendings b.
Proof. intros a b. unfold wpendings. rewrite filter_app, app_length. reflexivity. Qed.

(** [poll_flush] moves bytes from the buffer to the connection. *)
Lemma flush_once : forall wb w wb' w' p, wb_ok wb -> wready_means_ready w -> wb_state wb <> StEos ->
  wb_poll_flush wb w = (wb', w', p) ->
  wb_ok wb' /\ wb_capacity wb' = wb_capacity wb /\
  aw_data w' ++ wb_content wb' = aw_data w ++ wb_content wb /\
  length (wb_content wb') <= length (wb_content wb) /\
  (exists used, aw_plan w = used ++ aw_plan w' /\ (p = Pending -> exists u', used = u' ++ [None])) /\
  ((p = Pending /\ wb_content wb' <> [] /\ wb_state wb' <> StEos) \/
   (p = Ready (Ok tt) /\ wb_content wb' = [] /\ wb_state wb' <> StEos) \/
   (p = Ready (Ok tt) /\ wb_state wb' = StEos /\ In (Some WrZero) (aw_plan w)) \/
   (exists e, In (Some (WrErr e)) (aw_plan w) /\ p = Ready (Err (reported_kind e)))).
Proof.
  intros wb w wb' w' p OK RR NE H.
  destruct (poll_flush_used _ _ _ H) as (used & QU & UP).
  destruct (C45_poll_flush _ RR H) as ((woken & FL) & PW & _).
  destruct (flush_spec _ OK FL) as [(rest & w1 & WR & OK' & I' & C' & _ & Cases) _].
  destruct (writing_data WR) as [WD WL]. pose proof (writing_plan WR) as WP.
  assert (PM : forall x, x <> WrErr IoWouldBlock -> In x (wr_plan (sync_writer w)) -> In (Some x) (aw_plan w)).
  { intros x NX IN. cbn in IN. apply in_map_iff in IN as ([y|] & Z & IN); congruence. }
  split; [exact OK'|]. split; [unfold wb_capacity; congruence|].
  change (aw_data w) with (wr_data (sync_writer w)). change (aw_data w') with (wr_data (sync_writer w')).
  rewrite C'.
  destruct Cases as [(-> & Q & R & S)|(NR & o & e & R2 & R3 & R4 & R5)].
  - rewrite Q. split; [exact WD|]. split; [exact WL|]. split; [exists used; auto|].
    assert (SN : wb_state wb' <> StEos) by (rewrite S; destruct (wb_content wb); [exact NE|discriminate]).
    destruct p as [|x].
    + specialize (PW eq_refl). rewrite S in PW. destruct (wb_content wb) eqn:CE; [|discriminate].
      exfalso. apply (content_empty OK) in CE. unfold wb_poll_flush in H. cbn [wb_poll_flush_loop] in H.
      fold (wb_is_empty wb) in CE. rewrite CE in H. discriminate.
    + cbn in R. subst x. auto.
  - destruct (wr_write_plan _ _ R2) as (P1 & P2 & P3). pose proof (wr_write_data _ _ R2) as P4.
    assert (DQ : wr_data (sync_writer w') = wr_data w1).
    { destruct o as [[|m]|ioe]; cbn in R3; try discriminate R3.
      - destruct P4 as [_ P4]. cbn in P4. rewrite app_nil_r in P4. exact P4.
      - exact P4. }
    rewrite DQ. split; [exact WD|]. split; [exact WL|]. split; [exists used; auto|].
    destruct o as [[|m]|ioe]; cbn in R3; try discriminate R3.
    + destruct (P3 eq_refl) as [Z|Z]; [congruence|]. injection R3 as <-. cbn in R4, R5.
      destruct p as [|x]; [specialize (PW eq_refl); congruence|]. cbn in R4. subst x.
      right; right; left. split; [reflexivity|]. split; [exact R5|]. apply PM; [discriminate|apply WP; exact Z].
    + pose proof (P2 _ eq_refl) as P5. apply WP in P5. destruct ioe; cbn in R3; injection R3 as <-; cbn in R4, R5.
      1:{ destruct p as [|x].
        - left. rewrite R5. split; [reflexivity|]. split; [exact NR|discriminate].
        - exfalso. cbn in R4. subst x. destruct (poll_flush_ready _ _ _ H) as [Z|Z]; [|congruence].
          apply NR. rewrite <- C'. apply (content_empty OK'). exact Z. }
      all: right; right; right.
      1: exists IoUnexpectedEof. 2: exists IoInterrupted. 3: exists IoOther.
      all: split; [apply PM; [discriminate|exact P5]|].
      all: destruct p as [|x]; [specialize (PW eq_refl); congruence|]; cbn in R4; rewrite R4; reflexivity.
Qed.

Section Loop.
Context {T I : Type} (E : Encoder T I) (Pe : T -> Prop) (fuel cap : nat) (whole : list byte).
Hypotheses (HR : rests E Pe) (FU : cap < fuel) (CAP : 0 < cap).

(** [encode_to_write_buf] moves bytes from the item to the buffer. *)
Lemma encode_once : forall s wb erest, sender_ok E Pe fuel cap s erest -> wb_ok wb -> wb_capacity wb = cap ->
  wb_state wb <> StEos ->
  exists s' wb' k, encode_to_write_buf E fuel s wb = (s', wb', Ok tt) /\ k <= length erest /\
    wb_ok wb' /\ wb_capacity wb' = cap /\ wb_state wb' = wb_state wb /\
    wb_content wb' = wb_content wb ++ firstn k erest /\ sender_ok E Pe fuel cap s' (skipn k erest) /\
    (enc_idle E s = true -> enc_idle E s' = true) /\
    (enc_idle E s = false -> wb_content wb = [] -> 0 < k \/ enc_idle E s' = true).
Proof.
  intros s wb erest HS OK CC NE.
  destruct (encode_to_write_buf E fuel s wb) as [[s' wb'] x] eqn:X.
  destruct (encode_buf_spec _ _ _ OK X) as (d' & rr & E1 & I' & H' & S' & K' & E2).
  pose proof (indices_le OK) as LE. pose proof OK as [L HTl].
  assert (LB : length (skipn (wb_tail wb) (wb_inner wb)) = cap - wb_tail wb).
  { rewrite skipn_length. unfold wb_capacity in CC. lia. }
  replace (eos_new (st_is_eos (wb_state wb))) with Unknown in E1
    by (destruct (wb_state wb); try reflexivity; congruence).
  destruct (@encode_step _ _ E Pe fuel cap cap HR FU s erest (skipn (wb_tail wb) (wb_inner wb)) HS) as (s1 & k & Y & Kk & HS' & ID1 & ID2);
    [lia|].
  rewrite E1 in Y. injection Y as -> -> ->. destruct E2 as [-> E2].
  assert (LK : k <= length erest /\ k <= cap - wb_tail wb) by lia.
  assert (LD : length (firstn k erest ++ skipn k (skipn (wb_tail wb) (wb_inner wb))) = cap - wb_tail wb).
  { rewrite app_length, firstn_length, skipn_length, LB. lia. }
  assert (C' : wb_content wb' = wb_content wb ++ firstn k erest).
  { unfold wb_content. rewrite I', H', E2, stretch_tail_push by lia. f_equal.
    rewrite firstn_app, firstn_firstn, Nat.min_id, firstn_length.
    replace (k - Nat.min k (length erest)) with 0 by lia. cbn [firstn]. apply app_nil_r. }
  assert (CL : length (wb_inner wb') = length (wb_inner wb)).
  { rewrite I', app_length, firstn_length, LD. unfold wb_capacity in CC. lia. }
  exists s1, wb', k. split; [reflexivity|]. split; [lia|].
  split; [unfold wb_ok, indices_ok; rewrite CL, H', E2; unfold wb_capacity in CC; lia|].
  split; [unfold wb_capacity in *; congruence|]. split; [exact S'|]. split; [exact C'|]. split; [exact HS'|].
  split; [exact ID1|]. intros IE CE.
  assert (T0 : wb_tail wb = 0) by (apply (content_empty OK) in CE; apply Nat.eqb_eq; exact CE).
  apply ID2; [exact IE|lia].
Qed.

(** The state of the task between two turns: of [whole], [erest] and [wt] are not yet in the buffer. *)
Definition owes (todo : list I) (s : T) (wb : WriteBuf) (w : AWriter) (erest : list byte) (wt : list (list byte)) : Prop :=
  Forall2 (sends_as E Pe fuel cap) wt todo /\ sender_ok E Pe fuel cap s erest /\ wb_ok wb /\ wb_capacity wb = cap /\
  wb_state wb <> StEos /\ wready_means_ready w /\ whole = aw_data w ++ wb_content wb ++ erest ++ concat wt.
Definition debt (todo : list I) (s : T) (wb : WriteBuf) (erest : list byte) (wt : list (list byte)) : nat :=
  length (wb_content wb) + length erest + length (concat wt) + 2 * length todo + (if enc_idle E s then 0 else 1).

(** The beginning of a turn: the next item. *)
Lemma start_once : forall todo s wb w erest wt, owes todo s wb w erest wt ->
  exists todo1 s1 erest1 wt1,
    (match todo with
     | i :: todo' => if enc_idle E s then let '(s', r) := enc_start E fuel s i in (todo', s', r) else (todo, s, Ok tt)
     | [] => ([], s, Ok tt)
     end) = (todo1, s1, Ok tt) /\ owes todo1 s1 wb w erest1 wt1 /\ debt todo1 s1 wb erest1 wt1 <= debt todo s wb erest wt /\
    (debt todo1 s1 wb erest1 wt1 = debt todo s wb erest wt -> enc_idle E s1 = true -> todo1 = []).
Proof.
  intros todo s wb w erest wt (HT & HS & OK & CC & NE & RR & Q).
  destruct todo as [|i todo].
  { exists [], s, erest, wt. split; [reflexivity|]. split; [repeat split; auto; apply OK|]. auto. }
  destruct (enc_idle E s) eqn:ID.
  - inversion HT as [|w0 i' wt' todo' (f1 & LF & AC) HT' Q1 Q2]; subst.
    unfold sender_ok in HS. rewrite ID in HS. destruct HS as [P ->].
    destruct (AC s P fuel) as (s' & ST & EM); [lia|]. rewrite ST.
    exists todo, s', w0, wt'. split; [reflexivity|]. split.
    + split; [exact HT'|]. split; [eapply sender_emits; eassumption|]. repeat split; auto; apply OK.
    + unfold debt. rewrite ID. cbn [concat length app]. rewrite app_length. destruct (enc_idle E s'); lia.
  - exists (i :: todo), s, erest, wt. split; [reflexivity|]. split; [repeat split; auto; apply OK|].
    split; [lia|]. congruence.
Qed.

Lemma send_poll_ok : forall turns todo s wb w erest wt, owes todo s wb w erest wt -> debt todo s wb erest wt < turns ->
  exists todo' s' wb' w' erest' wt' o,
    send_poll E fuel turns todo s wb w = (todo', s', wb', w', o) /\
    (exists rest, whole = aw_data w' ++ rest) /\
    (exists used, aw_plan w = used ++ aw_plan w' /\ (o = Pending -> exists u', used = u' ++ [None])) /\
    ((o = Pending /\ wb_content wb' <> [] /\ owes todo' s' wb' w' erest' wt' /\
        debt todo' s' wb' erest' wt' <= debt todo s wb erest wt) \/
     (o = Ready (Ok tt) /\ whole = aw_data w') \/
     (o = Ready (Err UnexpectedEos) /\ In (Some WrZero) (aw_plan w)) \/
     (exists e, o = Ready (Err (reported_kind e)) /\ In (Some (WrErr e)) (aw_plan w))).
Proof.
  induction turns as [|turns IH]; intros todo s wb w erest wt HO LT; [lia|].
  cbn [send_poll]. destruct (@start_once todo s wb w erest wt HO) as (todo1 & s1 & erest1 & wt1 & X & HO1 & L1 & Z1).
  rewrite X. clear X. destruct HO1 as (HT & HS & OK & CC & NE & RR & Q).
  destruct (@encode_once s1 wb erest1 HS OK CC NE) as (s2 & wb1 & k & Y & LK & OK1 & CC1 & ST1 & C1 & HS2 & ID1 & ID2).
  rewrite Y. destruct (wb_poll_flush wb1 w) as [[wb2 w2] p] eqn:FL.
  assert (NE1 : wb_state wb1 <> StEos) by congruence.
  destruct (@flush_once wb1 w wb2 w2 p OK1 RR NE1 FL) as (OK2 & CC2 & DA & LC & (used & QU & UP) & Cases).
  assert (RR2 : wready_means_ready w2).
  { intro Z. apply RR. rewrite QU. apply in_or_app. auto. }
  assert (Q2 : whole = aw_data w2 ++ wb_content wb2 ++ skipn k erest1 ++ concat wt1).
  { rewrite Q, !app_assoc, DA, C1, <- !app_assoc. do 2 f_equal. rewrite !app_assoc, firstn_skipn. reflexivity. }
  assert (L2 : debt todo1 s2 wb2 (skipn k erest1) wt1 <= debt todo1 s1 wb erest1 wt1).
  { unfold debt. rewrite skipn_length. rewrite C1, app_length, firstn_length in LC.
    destruct (enc_idle E s1); [rewrite ID1 by reflexivity|destruct (enc_idle E s2)]; lia. }
  destruct Cases as [(-> & CN & SN)|[(-> & CN & SN)|[(-> & SE & IN)|(e & IN & ->)]]]; cbn [sync_result].
  - replace (st_is_eos (wb_state wb2)) with false by (destruct (wb_state wb2); try reflexivity; congruence).
    replace (wb_is_empty wb2) with false
      by (symmetry; apply not_true_is_false; intro Z; apply CN, (content_empty OK2); exact Z).
    rewrite andb_false_r. exists todo1, s2, wb2, w2, (skipn k erest1), wt1, Pending. split; [reflexivity|].
    split; [eauto|]. split; [exists used; auto|]. left. split; [reflexivity|]. split; [exact CN|].
    split; [repeat split; auto; try apply OK2; congruence|lia].
  - replace (st_is_eos (wb_state wb2)) with false by (destruct (wb_state wb2); try reflexivity; congruence).
    replace (wb_is_empty wb2) with true
      by (symmetry; apply (content_empty OK2); exact CN).
    rewrite andb_true_r.
    destruct (enc_idle E s2 && match todo1 with [] => true | _ :: _ => false end) eqn:DN.
    + apply andb_true_iff in DN as [ID2' TD]. destruct todo1; [|discriminate].
      inversion HT; subst wt1. unfold sender_ok in HS2. rewrite ID2' in HS2. destruct HS2 as [_ E0].
      rewrite CN, E0 in Q2. cbn [concat] in Q2. rewrite !app_nil_r in Q2.
      exists [], s2, wb2, w2, [], [], (Ready (Ok tt)). split; [reflexivity|].
      split; [exists []; rewrite app_nil_r; exact Q2|]. split; [exists used; split; [exact QU|discriminate]|]. auto.
    + assert (L3 : debt todo1 s2 wb2 (skipn k erest1) wt1 < debt todo s wb erest wt).
      { destruct (Nat.eq_dec (debt todo1 s1 wb erest1 wt1) (debt todo s wb erest wt)) as [EQ|]; [|lia].
        assert (NN : debt todo1 s2 wb2 (skipn k erest1) wt1 < debt todo1 s1 wb erest1 wt1); [|lia].
        unfold debt. rewrite CN, skipn_length. cbn [length].
        destruct (wb_content wb) eqn:CW.
        - destruct (enc_idle E s1) eqn:I1.
          + rewrite (Z1 EQ eq_refl) in *. rewrite ID1 in DN by reflexivity. discriminate.
          + destruct (ID2 eq_refl eq_refl) as [K0|I2]; [destruct (enc_idle E s2); cbn [length]; lia|].
            rewrite I2. cbn [length]. lia.
        - cbn [length]. destruct (enc_idle E s1); [rewrite ID1 by reflexivity|destruct (enc_idle E s2)]; lia. }
      destruct (IH todo1 s2 wb2 w2 (skipn k erest1) wt1) as (t' & s' & wb' & w' & er' & wt' & o & V1 & V2 & (us & QU2 & UP2) & V4).
      { repeat split; auto; try apply OK2; congruence. }
      { lia. }
      exists t', s', wb', w', er', wt', o. split; [exact V1|]. split; [exact V2|]. split.
      * exists (used ++ us). rewrite QU, QU2, app_assoc. split; [reflexivity|].
        intro Z. destruct (UP2 Z) as (u' & ->). exists (used ++ u'). now rewrite app_assoc.
      * destruct V4 as [(V5 & V6 & V7 & V8)|[V5|[(V5 & IN)|(e & V5 & IN)]]].
        -- left. repeat split; auto; try apply V7; lia.
        -- auto.
        -- right; right; left. split; [exact V5|]. rewrite QU. apply in_or_app. auto.
        -- right; right; right. exists e. split; [exact V5|]. rewrite QU. apply in_or_app. auto.
  - rewrite SE. cbn [st_is_eos]. exists todo1, s2, wb2, w2, [], [], (Ready (Err UnexpectedEos)). split; [reflexivity|].
    split; [eauto|]. split; [exists used; split; [exact QU|discriminate]|]. auto.
  - exists todo1, s2, wb2, w2, [], [], (Ready (Err (reported_kind e))). split; [reflexivity|].
    split; [eauto|]. split; [exists used; split; [exact QU|discriminate]|]. eauto 10.
Qed.

Lemma send_task_ok : forall turns polls todo s wb w erest wt, owes todo s wb w erest wt -> debt todo s wb erest wt < turns ->
  exists todo' s' wb' w' o,
    send_task E fuel turns polls todo s wb w = (todo', s', wb', w', o) /\
    (exists rest, whole = aw_data w' ++ rest /\ (o = Pending -> 0 < polls -> rest <> [])) /\
    (exists used, aw_plan w = used ++ aw_plan w' /\ (o = Pending -> 0 < polls -> exists u', used = u' ++ [None]) /\
       (o = Pending -> polls <= wpendings used)) /\
    (o = Pending \/
     (o = Ready (Ok tt) /\ whole = aw_data w') \/
     (o = Ready (Err UnexpectedEos) /\ In (Some WrZero) (aw_plan w)) \/
     (exists e, o = Ready (Err (reported_kind e)) /\ In (Some (WrErr e)) (aw_plan w))).
Proof.
  intros turns polls. induction polls as [|polls IH]; intros todo s wb w erest wt HO LT.
  { exists todo, s, wb, w, Pending. split; [reflexivity|].
    split; [destruct HO as (_ & _ & _ & _ & _ & _ & Q); eexists; split; [exact Q|lia]|].
    split; [exists []; split; [reflexivity|split; [lia|cbn; lia]]|]. auto. }
  cbn [send_task].
  destruct (@send_poll_ok turns todo s wb w erest wt HO LT)
    as (t1 & s1 & wb1 & w1 & er1 & wt1 & o1 & X1 & (rest1 & X2) & (u1 & QU & UP) & X4).
  rewrite X1. destruct o1 as [|x].
  - destruct X4 as [(_ & CN & HO1 & L1)|[(Z & _)|[(Z & _)|(k & Z & _)]]]; try discriminate.
    destruct (IH t1 s1 wb1 w1 er1 wt1 HO1) as (t' & s' & wb' & w' & o & Y1 & (rest & Y2 & NR) & (u2 & QU2 & UP2 & NP2) & Y4);
      [lia|].
    exists t', s', wb', w', o. split; [exact Y1|]. destruct (UP eq_refl) as (u' & UE). split; [|split].
    + destruct polls as [|polls]; [|exists rest; split; [exact Y2|intros Z _; apply NR; [exact Z|lia]]].
      cbn [send_task] in Y1. injection Y1 as <- <- <- <- <-. destruct HO1 as (_ & _ & _ & _ & _ & _ & Q).
      eexists. split; [exact Q|]. intros _ _. destruct (wb_content wb1); [congruence|discriminate].
    + exists (u1 ++ u2). split; [rewrite QU, QU2, app_assoc; reflexivity|]. split.
      * intros Z _. destruct polls as [|polls].
        -- cbn [send_task] in Y1. injection Y1 as <- <- <- <- <-. exists u'.
           assert (E0 : u2 = []) by (apply (f_equal (@length _)) in QU2; rewrite app_length in QU2; destruct u2; [reflexivity|cbn in QU2; lia]).
           rewrite E0, app_nil_r. exact UE.
        -- destruct (UP2 Z) as (u'' & ->); [lia|]. exists (u1 ++ u''). now rewrite app_assoc.
      * intro Z. specialize (NP2 Z). rewrite wpendings_app, UE, wpendings_app. cbn. lia.
    + destruct Y4 as [Z|[Z|[(Z & IN)|(e & Z & IN)]]]; auto.
      * right; right; left. split; [exact Z|]. rewrite QU. apply in_or_app. auto.
      * right; right; right. exists e. split; [exact Z|]. rewrite QU. apply in_or_app. auto.
  - exists t1, s1, wb1, w1, (Ready x). split; [reflexivity|]. split; [exists rest1; split; [exact X2|discriminate]|].
    split; [exists u1; split; [exact QU|split; discriminate]|].
    destruct X4 as [(Z & _)|X4]; [discriminate|]. auto.
Qed.
End Loop.

(** ** C99 *)

(** However the connection accepts the bytes, after any number of polls:
    - what it has accepted is the beginning of the encodings, in order, nothing twice and nothing left out;
    - if the task is pending, there is more to send, the last answer of the connection was "pending", so that it will wake the
      task, and it has given that answer at least as often as the task was polled;
    - if the task says that it is done, everything was accepted;
    - an error is that of the connection (which has closed, or failed). *)
Theorem C99_task : forall A (c : codec A) ws items inner,
  wf c -> enc_again c = true -> Forall2 (wire c) ws items -> inner <> [] ->
  exists f0, forall fuel turns polls plan, f0 < fuel -> length (concat ws) + 2 * length items < turns ->
  ~ In (Some (WrErr IoWouldBlock)) plan ->
  exists todo s wb w o,
    send_task (encoder c) fuel turns polls items (enc_fresh c) (wb_new inner) (mkAWriter [] plan) = (todo, s, wb, w, o) /\
    (exists rest, concat ws = aw_data w ++ rest /\ (o = Pending -> 0 < polls -> rest <> [])) /\
    ((o = Pending /\ (0 < polls -> exists answers, plan = answers ++ [None] ++ aw_plan w) /\
      polls + wpendings (aw_plan w) <= wpendings plan) \/
     (o = Ready (Ok tt) /\ aw_data w = concat ws) \/
     (o = Ready (Err UnexpectedEos) /\ In (Some WrZero) plan) \/
     (exists e, o = Ready (Err (reported_kind e)) /\ In (Some (WrErr e)) plan)).
Proof.
  intros A c ws items inner WF EA HW NI.
  pose proof (proj1 term_enc_ok A c WF) as EO. unfold code_enc_ok in EO. rewrite EA in EO.
  destruct (enc_ok_again EO) as (Pe & HE & E0 & RS).
  assert (K : exists f0, forall fuel, f0 < fuel ->
            Forall2 (sends_as (encoder c) Pe fuel (length inner)) ws items).
  { clear - HW HE. induction HW as [|w a ws items W HW (f0 & IH)].
    - exists 0. intros. constructor.
    - destruct (HE w a W) as (f1 & AC). exists (f0 + f1 + length inner). intros fuel LF.
      constructor; [|apply IH; lia]. exists f1. split; [lia|exact AC]. }
  destruct K as (f0 & K). exists (f0 + length inner). intros fuel turns polls plan LF LT RR.
  destruct (RS _ E0) as (ID & _).
  assert (IP : 0 < length inner) by (destruct inner; [congruence|cbn; lia]).
  assert (FU : length inner < fuel) by lia.
  destruct (@send_task_ok _ _ (encoder c) Pe fuel (length inner) (concat ws) RS FU IP turns polls items (enc_fresh c) (wb_new inner)
              (mkAWriter [] plan) [] ws) as (todo & s & wb & w & o & X1 & X2 & (used & QU & UP & NP) & X4).
  { split; [apply K; lia|]. split; [unfold sender_ok; rewrite ID; auto|].
    split; [unfold wb_ok, indices_ok; cbn; lia|]. split; [reflexivity|]. split; [discriminate|]. split; [exact RR|reflexivity]. }
  { unfold debt. rewrite ID. change (wb_content (wb_new inner)) with (@nil byte). cbn [length]. lia. }
  exists todo, s, wb, w, o. split; [exact X1|]. split; [exact X2|]. cbn [aw_plan] in *.
  destruct X4 as [->|[(-> & Q)|X4]]; [left|auto|auto]. split; [reflexivity|]. split.
  - intro Z. destruct (UP eq_refl Z) as (u' & UE). exists u'. rewrite QU, UE, <- app_assoc. reflexivity.
  - specialize (NP eq_refl). rewrite QU, wpendings_app. lia.
Qed.
Print Assumptions C99_task.

(** So a connection that does not close or fail has everything, after one poll more than it is pending. *)
Corollary C99_delivers : forall A (c : codec A) ws items inner,
  wf c -> enc_again c = true -> Forall2 (wire c) ws items -> inner <> [] ->
  exists f0, forall fuel turns polls plan, f0 < fuel -> length (concat ws) + 2 * length items < turns ->
  ~ In (Some WrZero) plan -> (forall e, ~ In (Some (WrErr e)) plan) -> wpendings plan < polls ->
  exists todo s wb w,
    send_task (encoder c) fuel turns polls items (enc_fresh c) (wb_new inner) (mkAWriter [] plan)
      = (todo, s, wb, w, Ready (Ok tt)) /\ aw_data w = concat ws.
Proof.
  intros A c ws items inner WF EA HW NI. destruct (C99_task c WF EA HW NI) as (f0 & K). exists f0.
  intros fuel turns polls plan LF LT NZ NE LP.
  destruct (K fuel turns polls plan LF LT (NE _)) as (todo & s & wb & w & o & X & _ & Y). exists todo, s, wb, w.
  destruct Y as [(_ & _ & L)|[(-> & Q)|[(_ & Z)|(e & _ & Z)]]]; [lia|auto|elim (NZ Z)|elim (NE _ Z)].
Qed.
Print Assumptions C99_delivers.

(** Two messages through a buffer of 3 bytes. *)
Definition ex_accepts : list (option WrPlan) := [None; Some (WrSome 1); None; Some (WrSome 0); None; None].
Example C99_example :
  wf ex_tlv /\ enc_again ex_tlv = true /\ Forall2 (wire ex_tlv) [ex_tlv_bytes; [x08; x00; x00]] [ex_tlv_item; (8%N, [])] /\
  ~ In (Some WrZero) ex_accepts /\ (forall e, ~ In (Some (WrErr e)) ex_accepts) /\ wpendings ex_accepts < 5 /\
  (exists todo s wb w, send_task (encoder ex_tlv) 99 99 2 [ex_tlv_item; (8%N, [])] (enc_fresh ex_tlv)
      (wb_new [x00; x00; x00]) (mkAWriter [] ex_accepts) = (todo, s, wb, w, Pending) /\
    todo = [(8%N, [])] /\ aw_data w = firstn 2 ex_tlv_bytes /\ wb_content wb = [x02]) /\
  (exists todo s wb w, send_task (encoder ex_tlv) 99 99 5 [ex_tlv_item; (8%N, [])] (enc_fresh ex_tlv)
      (wb_new [x00; x00; x00]) (mkAWriter [] ex_accepts) = (todo, s, wb, w, Ready (Ok tt)) /\
    aw_data w = ex_tlv_bytes ++ [x08; x00; x00]).
Proof.
  split; [apply ex_tlv_wf|]. split; [reflexivity|].
  split; [constructor; [apply ex_tlv_wire1|constructor; [apply ex_tlv_wire2|constructor]]|].
  split; [cbn; intuition discriminate|]. split; [intro e; cbn; intuition discriminate|]. split; [cbn; lia|].
  split; eexists _, _, _, _; (split; [vm_compute; reflexivity|]); vm_compute; repeat split.
Qed.
