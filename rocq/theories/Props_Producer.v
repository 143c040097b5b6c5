(** * C100: a producer that sleeps while the write buffer is full is always woken by [flush]. *)
From Coq Require Import Lia ZifyBool ZifyNat ZifyN.
From Verif Require Import Producer LinkProofs Universe UniverseProofs CodecProofs Examples IoProofs Lib Props_Io Props_Link.
Set Implicit Arguments.

Section System.
Context {T I : Type} (E : Encoder T I) (Pe : T -> Prop) (fuel cap task : nat) (whole : list byte).
Hypotheses (HR : rests E Pe) (FU : cap < fuel) (CAP : 0 < cap).

(** [encode] leaves room only if the item is complete. *)
Lemma encode_fills : forall s erest buf, sender_ok E Pe fuel cap s erest -> length buf <= cap ->
  exists s' k, enc_encode E fuel s buf Unknown = (s', firstn k erest ++ skipn k buf, Ok k) /\
    k = Nat.min (length erest) (length buf) /\ sender_ok E Pe fuel cap s' (skipn k erest) /\
    (enc_idle E s' = false -> k = length buf).
Proof.
  intros s erest buf H L. unfold sender_ok in H. destruct (enc_idle E s) eqn:ID.
  - destruct H as [P ->]. destruct (HR P) as (_ & _ & X).
    destruct (X fuel buf Unknown) as (s' & Y & P'); [lia|].
    exists s', 0. cbn. split; [exact Y|]. split; [reflexivity|].
    destruct (HR P') as (ID' & _). split; [unfold sender_ok; rewrite ID'; auto|]. congruence.
  - destruct H as (f1 & LF & R & OK & X).
    destruct (Nat.le_gt_cases (length erest) (length buf)) as [LE|GT].
    + destruct (eo_last OK X ID LE (fuel := fuel) (e := Unknown)) as (s' & Y & ID' & X'); [lia|].
      exists s', (length erest). rewrite firstn_all, skipn_all. split; [exact Y|].
      split; [lia|]. split; [|congruence].
      eapply sender_emits; [exact LF|]. exists R. auto.
    + rewrite <- (firstn_skipn (length buf) erest) in X.
      destruct (eo_more OK X ID (fuel := fuel) (buf := buf) (e := Unknown)) as (s' & Y & ID' & X').
      * rewrite firstn_length. lia.
      * intro Z. apply (f_equal (@length _)) in Z. rewrite skipn_length in Z. cbn in Z. lia.
      * reflexivity.
      * lia.
      * exists s', (length buf). rewrite skipn_all, app_nil_r. split; [exact Y|].
        split; [lia|]. split; [eapply sender_emits; [exact LF|]; exists R; auto|]. auto.
Qed.

Lemma encode_async_once : forall s wb erest, sender_ok E Pe fuel cap s erest -> wb_ok wb -> wb_capacity wb = cap ->
  wb_state wb <> StEos ->
  exists s' wb' k, encode_to_write_buf_async E fuel s wb task = (s', wb', Ok tt) /\
    wb_ok wb' /\ wb_capacity wb' = cap /\ wb_state wb' <> StEos /\ wb_waker wb' = Some task /\
    wb_content wb' = wb_content wb ++ firstn k erest /\ sender_ok E Pe fuel cap s' (skipn k erest) /\
    (enc_idle E s' = false -> wb_tail wb' = cap).
Proof.
  intros s wb erest HS OK CC NE.
  destruct (encode_to_write_buf E fuel s wb) as [[s' wb'] x] eqn:X.
  destruct (encode_buf_spec _ _ _ OK X) as (d' & rr & E1 & I' & H' & S' & K' & E2).
  pose proof (indices_le OK) as LE. pose proof OK as [L HTl].
  assert (LB : length (skipn (wb_tail wb) (wb_inner wb)) = cap - wb_tail wb).
  { rewrite skipn_length. unfold wb_capacity in CC. lia. }
  replace (eos_new (st_is_eos (wb_state wb))) with Unknown in E1
    by (destruct (wb_state wb); try reflexivity; congruence).
  destruct (@encode_fills s erest (skipn (wb_tail wb) (wb_inner wb)) HS) as (s1 & k & Y & Kk & HS' & ID);
    [lia|].
  rewrite E1 in Y. injection Y as -> -> ->. destruct E2 as [-> E2].
  assert (LK : k <= length erest /\ k <= cap - wb_tail wb) by lia.
  assert (LD : length (firstn k erest ++ skipn k (skipn (wb_tail wb) (wb_inner wb))) = cap - wb_tail wb).
  { rewrite app_length, firstn_length, skipn_length, LB. lia. }
  assert (C' : wb_content wb' = wb_content wb ++ firstn k erest).
  { unfold wb_content. rewrite I', H', E2, stretch_tail_push by lia. f_equal.
    rewrite firstn_app, firstn_firstn, Nat.min_id, firstn_length.
    replace (k - Nat.min k (length erest)) with 0 by lia. cbn [firstn]. apply app_nil_r. }
  assert (CL : length (wb_inner wb') = length (wb_inner wb)).
  { rewrite I', app_length, firstn_length, LD. unfold wb_capacity in CC. lia. }
  unfold encode_to_write_buf_async. rewrite X.
  eexists s1, _, k. split; [reflexivity|].
  split; [unfold wb_ok, indices_ok; cbn; rewrite CL, H', E2; unfold wb_capacity in CC; lia|].
  split; [unfold wb_capacity in *; cbn; congruence|]. split; [cbn; congruence|]. split; [reflexivity|].
  split; [exact C'|]. split; [exact HS'|]. intro Z. cbn. specialize (ID Z). unfold wb_capacity in CC. lia.
Qed.

(** [out] is out, the rest of [whole] is still to go. *)
Definition owed (out : list byte) (todo : list I) (s : T) (wb : WriteBuf) (erest : list byte) (wt : list (list byte)) : Prop :=
  Forall2 (sends_as E Pe fuel cap) wt todo /\ sender_ok E Pe fuel cap s erest /\ wb_ok wb /\ wb_capacity wb = cap /\
  wb_state wb <> StEos /\ whole = out ++ wb_content wb ++ erest ++ concat wt.


Lemma produce_ok : forall turns out todo s wb erest wt, owed out todo s wb erest wt ->
  length todo + (if enc_idle E s then 0 else 1) < turns ->
  exists todo' s' wb' erest' wt' o,
    produce E fuel turns task todo s wb = (todo', s', wb', o) /\ owed out todo' s' wb' erest' wt' /\
    length todo' <= length todo /\
    ((o = Pending /\ wb_waker wb' = Some task /\ wb_tail wb' = cap /\ enc_idle E s' = false) \/
     (o = Ready (Ok tt) /\ todo' = [] /\ enc_idle E s' = true)).
Proof.
  induction turns as [|turns IH]; intros out todo s wb erest wt HO LT; [lia|].
  cbn [produce].
  assert (GO : forall todo1 s1 erest1 wt1, owed out todo1 s1 wb erest1 wt1 -> length todo1 < turns -> length todo1 <= length todo ->
     exists todo' s' wb' erest' wt' o,
       match encode_to_write_buf_async E fuel s1 wb task with
       | (s2, wb2, Ok _) => if enc_idle E s2 then produce E fuel turns task todo1 s2 wb2 else (todo1, s2, wb2, Pending)
       | (s2, wb2, x) => (todo1, s2, wb2, Ready x)
       end = (todo', s', wb', o) /\ owed out todo' s' wb' erest' wt' /\
       length todo' <= length todo /\
       ((o = Pending /\ wb_waker wb' = Some task /\ wb_tail wb' = cap /\ enc_idle E s' = false) \/
        (o = Ready (Ok tt) /\ todo' = [] /\ enc_idle E s' = true))).
  { intros todo1 s1 erest1 wt1 (HT & HS & OK & CC & NE & Q) L1 L2.
    destruct (@encode_async_once s1 wb erest1 HS OK CC NE) as (s2 & wb2 & k & Y & OK2 & CC2 & NE2 & WK & C2 & HS2 & ID2).
    rewrite Y.
    assert (HO2 : owed out todo1 s2 wb2 (skipn k erest1) wt1).
    { split; [exact HT|]. split; [exact HS2|]. split; [exact OK2|]. split; [exact CC2|]. split; [exact NE2|].
      rewrite Q, C2, <- !app_assoc. do 2 f_equal. rewrite app_assoc, firstn_skipn. reflexivity. }
    destruct (enc_idle E s2) eqn:I2.
    - destruct (IH _ _ _ _ _ _ HO2) as (t' & s' & wb' & er' & wt' & o & Z1 & Z2 & Z3 & Z4); [rewrite I2; lia|].
      exists t', s', wb', er', wt', o. repeat (split; [assumption||lia|]). exact Z4.
    - exists todo1, s2, wb2, (skipn k erest1), wt1, Pending. repeat (split; [assumption||reflexivity|]).
      left. auto. }
  destruct (enc_idle E s) eqn:ID.
  - destruct todo as [|i todo].
    + exists [], s, wb, erest, wt, (Ready (Ok tt)). repeat (split; [assumption||reflexivity|]). auto.
    + destruct HO as (HT & HS & OK & CC & NE & Q).
      inversion HT as [|w0 i' wt' todo' (f1 & LF & AC) HT' Q1 Q2]; subst wt i' todo'.
      unfold sender_ok in HS. rewrite ID in HS. destruct HS as [P ->].
      destruct (AC s P fuel) as (s' & ST & EM); [lia|]. rewrite ST.
      cbn [length] in *. eapply GO; [|lia|lia].
      split; [exact HT'|]. split; [eapply sender_emits; eassumption|]. auto.
  - eapply GO; [exact HO|lia|lia].
Qed.

(** ** [flush] frees the space only when all has gone out. *)
Lemma flush_tail : forall fl b w b' w' x, wb_ok b -> wb_flush_loop fl b w = (b', w', x) ->
  wb_content b' <> [] -> wb_tail b' = wb_tail b.
Proof.
  induction fl as [|fl IH]; intros b w b' w' x OK H NE; cbn [wb_flush_loop] in H;
    (destruct (wb_is_empty b); [injection H as <- <- <-; reflexivity|]).
  { injection H as <- <- <-. reflexivity. }
  rewrite (window_some OK) in H. fold (wb_content b) in H.
  destruct (wr_write w (wb_content b)) as [w1 o] eqn:W.
  destruct o as [[|n]|e]; [injection H as <- <- <-; reflexivity| |destruct e; injection H as <- <- <-; reflexivity].
  pose proof (wr_write_data _ _ W) as [LN _].
  destruct (advance_ok OK LN) as (OK1 & C1 & I1 & _).
  rewrite (IH _ _ _ _ _ OK1 H NE). unfold wb_advance in *.
  destruct (wb_head b + S n =? wb_tail b) eqn:HT; [|reflexivity].
  exfalso. apply NE. cbn [wb_is_empty] in H.
  destruct fl; cbn [wb_flush_loop] in H; cbn [wb_is_empty wb_tail] in H; injection H as <- _ _; reflexivity.
Qed.
Definition frugal (plan : list WrPlan) : bool := match plan with WrErr _ :: _ => false | _ => true end.

Lemma flush_happens : forall out todo s wb erest wt plan wb' w' x woken, owed out todo s wb erest wt -> ~ In WrZero plan ->
  wb_flush wb (mkWriter out plan) = (wb', w', x, woken) ->
  owed (wr_data w') todo s wb' erest wt /\ (exists sent, wr_data w' = out ++ sent /\ wb_content wb = sent ++ wb_content wb') /\
  wb_waker wb' = wb_waker wb /\
  (x = Ok tt \/ exists e, x = Err (reported_kind e) /\ In (WrErr e) plan) /\
  (wb_content wb' = [] -> woken = wb_waker wb) /\
  (wb_content wb' <> [] -> wb_tail wb' = wb_tail wb /\ (wb_tail wb = cap -> woken = None)) /\
  (frugal plan = true -> wb_content wb <> [] -> length (wb_content wb') < length (wb_content wb)).
Proof.
  intros out todo s wb erest wt plan wb' w' x woken (HT & HS & OK & CC & NE & Q) NZ X.
  pose proof X as X0. unfold wb_flush in X0.
  destruct (wb_flush_loop (S (wb_tail wb)) wb (mkWriter out plan)) as [[b1 w1'] x1] eqn:FLL.
  injection X0 as -> -> -> _. pose proof (@flush_tail _ _ _ _ _ _ OK FLL) as TL. clear FLL.
  destruct (flush_spec _ OK X) as [(rest & w1 & WR & OK' & I' & C' & K' & Cases) WK].
  destruct (writing_data WR) as [WD WL]. pose proof (writing_plan WR) as WP. cbn [wr_data wr_plan] in WD, WP.
  assert (R : wr_data w' = wr_data w1 /\ wb_state wb' <> StEos /\
              (x = Ok tt \/ exists e, x = Err (reported_kind e) /\ In (WrErr e) plan)).
  { destruct Cases as [(R1 & -> & -> & R4)|(R1 & o & e & R2 & R3 & R4 & R5)].
    - split; [reflexivity|]. split; [|left; reflexivity].
      rewrite R4. destruct (wb_content wb); [exact NE|discriminate].
    - destruct (wr_write_plan _ _ R2) as (P1 & P2 & P3).
      pose proof (wr_write_data _ _ R2) as P4.
      destruct o as [[|m]|ioe]; cbn in R3; try discriminate R3.
      + destruct (P3 eq_refl) as [Z|Z]; [congruence|]. elim NZ. apply WP. exact Z.
      + pose proof (WP _ (P2 _ eq_refl)) as P5. split; [exact P4|].
        split; [rewrite R5; destruct ioe; injection R3 as <-; discriminate|].
        rewrite R4. clear R4 R5. destruct ioe; injection R3 as <-; cbn; [left; reflexivity| | |];
          right; eexists; split; try exact P5; reflexivity. }
  destruct R as (R1 & R2 & R3). rewrite <- C' in *. clear C'.
  assert (SE : exists sent, wr_data w' = out ++ sent /\ wb_content wb = sent ++ wb_content wb').
  { rewrite R1. clear - WR. remember (mkWriter out plan) as w0 eqn:E0. replace out with (wr_data w0) by now subst.
    clear E0. revert WR. generalize (wb_content wb), (wb_content wb'). intros d rest WR. induction WR as [|w data n w1 rest w' H W IH].
    - exists []. rewrite app_nil_r. auto.
    - destruct IH as (sent & S1 & S2). destruct (wr_write_data _ _ H) as [_ D].
      exists (firstn (S n) data ++ sent). rewrite S1, D, <- !app_assoc, <- S2, firstn_skipn. auto. }
  split.
  { split; [exact HT|]. split; [exact HS|]. split; [exact OK'|]. split; [unfold wb_capacity in *; congruence|].
    split; [exact R2|]. rewrite Q. destruct SE as (sent & -> & ->). rewrite <- !app_assoc. reflexivity. }
  split; [exact SE|]. split; [exact K'|]. split; [exact R3|]. split; [|split].
  - intro Z. destruct Cases as [(_ & _ & -> & _)|(Z' & _)]; [|congruence].
    rewrite WK. assert (T0 : wb_tail wb' = 0).
    { apply (content_empty OK') in Z. now apply Nat.eqb_eq in Z. }
    rewrite T0, I'. unfold wb_capacity in CC. destruct (0 =? length (wb_inner wb)) eqn:Z0; [apply Nat.eqb_eq in Z0; lia|exact K'].
  - intro Z. split; [exact (TL Z)|]. intro TC. rewrite WK. rewrite (TL Z), I', TC. unfold wb_capacity in CC. rewrite CC, Nat.eqb_refl.
    destruct x; reflexivity.
  - intros FP NC. destruct SE as (sent & S1 & S2). rewrite S2, app_length. destruct sent as [|b sent]; [|cbn; lia].
    exfalso. cbn [app] in S2. rewrite <- S2 in *.
    destruct Cases as [(Z & _)|(_ & o & e & V2 & V3 & _)]; [congruence|].
    assert (WE : w1 = mkWriter out plan).
    { revert WR. generalize (mkWriter out plan). intros w0 WR.
      inversion WR as [|w2 data n w3 rest' w4 H W]; subst; [reflexivity|].
      pose proof (wr_write_data _ _ H) as [LN _]. destruct (writing_data W) as [_ LR]. rewrite skipn_length in LR. lia. }
    subst w1. unfold wr_write in V2. cbn [wr_plan wr_data] in V2.
    destruct plan as [|[n| |e'] plan]; cbn [frugal] in FP; try discriminate FP; injection V2 as _ <-.
    + destruct (wb_content wb); [congruence|discriminate V3].
    + destruct (wb_content wb); [congruence|]. cbn in V3. discriminate V3.
    + apply NZ. left. reflexivity.
Qed.

(** ** All histories *)
Definition works_ok (k : works T I) : Prop :=
  exists erest wt, owed (k_out k) (k_todo k) (k_enc k) (k_wbuf k) erest wt /\
  match k_mode k with
  | Awake => True
  | Asleep => wb_waker (k_wbuf k) = Some task /\ wb_tail (k_wbuf k) = cap /\ enc_idle E (k_enc k) = false
  | Finished => k_todo k = [] /\ enc_idle E (k_enc k) = true
  end.

Lemma full_content : forall b, wb_ok b -> wb_tail b = cap -> wb_content b <> [].
Proof.
  intros b OK T0 Z. apply (content_empty OK) in Z. apply Nat.eqb_eq in Z. lia.
Qed.

Lemma happen_ok : forall turns x k, works_ok k -> flushes x -> length (k_todo k) + 1 < turns ->
  exists k' r, happen E fuel turns task x k = (k', r) /\ works_ok k' /\ length (k_todo k') <= length (k_todo k) /\
    (exists sent, k_out k' = k_out k ++ sent) /\
    (x = Run -> k_mode k' <> Awake /\ r = Ok tt /\ k_out k' = k_out k) /\
    (forall plan, x = Flush plan ->
      (r = Ok tt \/ exists e, r = Err (reported_kind e) /\ In (WrErr e) plan) /\
      (k_mode k = Asleep ->
         (k_mode k' = Awake /\ wb_content (k_wbuf k') = []) \/ (k_mode k' = Asleep /\ wb_content (k_wbuf k') <> [])) /\
      (k_mode k = Finished -> k_mode k' = Finished) /\
      (frugal plan = true -> wb_content (k_wbuf k) <> [] -> length (k_out k) < length (k_out k'))).
Proof.
  intros turns x [todo s wb out m] (erest & wt & HO & HM) FX LT. cbn [k_todo k_enc k_wbuf k_out k_mode] in *.
  destruct x as [|plan|plan]; [| |elim FX]; cbn [happen k_todo k_enc k_wbuf k_out k_mode].
  - destruct m.
    + destruct (@produce_ok turns out todo s wb erest wt HO) as (t' & s' & wb' & er' & wt' & o & X & HO' & L & C).
      { destruct (enc_idle E s); lia. }
      rewrite X. destruct C as [(-> & W & TC & ID)|(-> & TE & ID)].
      * eexists _, _. split; [reflexivity|]. cbn [k_todo k_enc k_wbuf k_out k_mode].
        split; [exists er', wt'; cbn; auto|]. split; [exact L|]. split; [exists []; now rewrite app_nil_r|].
        split; [repeat split; discriminate|]. discriminate.
      * eexists _, _. split; [reflexivity|]. cbn [k_todo k_enc k_wbuf k_out k_mode].
        split; [exists er', wt'; cbn; auto|]. split; [exact L|]. split; [exists []; now rewrite app_nil_r|].
        split; [repeat split; discriminate|]. discriminate.
    + eexists _, _. split; [reflexivity|]. cbn [k_todo k_enc k_wbuf k_out k_mode].
      split; [exists erest, wt; cbn; auto|]. split; [lia|]. split; [exists []; now rewrite app_nil_r|].
      split; [repeat split; discriminate|]. discriminate.
    + eexists _, _. split; [reflexivity|]. cbn [k_todo k_enc k_wbuf k_out k_mode].
      split; [exists erest, wt; cbn; auto|]. split; [lia|]. split; [exists []; now rewrite app_nil_r|].
      split; [repeat split; discriminate|]. discriminate.
  - cbn [flushes] in FX. destruct (wb_flush wb (mkWriter out plan)) as [[[wb' w'] x] woken] eqn:FL.
    destruct (@flush_happens _ _ _ _ _ _ _ _ _ _ _ HO FX FL) as (HO' & (sent & S1 & S2) & WK & RX & WE & WN & FP).
    eexists _, _. split; [reflexivity|]. cbn [k_todo k_enc k_wbuf k_out k_mode].
    assert (CE : wb_content wb' = [] \/ wb_content wb' <> []) by (destruct (wb_content wb'); [left|right]; congruence).
    split; [|split; [lia|split; [eauto|split; [discriminate|]]]].
    + exists erest, wt. cbn [k_todo k_enc k_wbuf k_out k_mode]. split; [exact HO'|].
      destruct m; [exact Logic.I| |exact HM]. destruct HM as (W & TC & ID).
      destruct CE as [CE|CE].
      * rewrite (WE CE), W, Nat.eqb_refl. exact Logic.I.
      * destruct (WN CE) as [TL WO]. rewrite (WO TC). repeat split; congruence.
    + intros plan' Q. injection Q as <-. split; [exact RX|]. split; [|split].
      * intros ->. destruct HM as (W & TC & ID). destruct CE as [CE|CE].
        -- rewrite (WE CE), W, Nat.eqb_refl. auto.
        -- destruct (WN CE) as [TL WO]. rewrite (WO TC). auto.
      * intros ->. reflexivity.
      * intros A B. specialize (FP A B). rewrite S1, app_length. rewrite S2, app_length in FP. lia.
Qed.

Lemma all_happen_ok : forall turns xs k, works_ok k -> (forall x, In x xs -> flushes x) -> length (k_todo k) + 1 < turns ->
  exists k' rs, all_happen E fuel turns task xs k = (k', rs) /\ works_ok k' /\ length (k_todo k') <= length (k_todo k) /\
    forall r, In r rs -> r = Ok tt \/ exists e plan, r = Err (reported_kind e) /\ In (Flush plan) xs /\ In (WrErr e) plan.
Proof.
  intros turns xs. induction xs as [|x xs IH]; intros k OK FX LT.
  { exists k, []. split; [reflexivity|]. split; [exact OK|]. split; [lia|]. intros r []. }
  cbn [all_happen].
  destruct (@happen_ok turns x k OK (FX x (or_introl eq_refl)) LT) as (k1 & r1 & X & OK1 & L1 & _ & XR & XF).
  rewrite X. destruct (IH k1 OK1) as (k2 & rs & Y & OK2 & L2 & RS); [intros; apply FX; right; assumption|lia|].
  rewrite Y. exists k2, (r1 :: rs). split; [reflexivity|]. split; [exact OK2|]. split; [lia|].
  intros r [<-|IN].
  - destruct x as [|plan|plan].
    + left. apply XR. reflexivity.
    + destruct (XF plan eq_refl) as ([->|(e & -> & IE)] & _); [auto|]. right. exists e, plan. cbn. auto.
    + elim (FX _ (or_introl eq_refl)).
  - destruct (RS r IN) as [->|(e & plan & -> & I1 & I2)]; [auto|]. right. exists e, plan. cbn. auto.
Qed.

(** ** Rounds *)
Lemma rounds_ok : forall turns plans k, works_ok k -> (forall plan, In plan plans -> ~ In WrZero plan) ->
  length (k_todo k) + 1 < turns ->
  exists k' rs, all_happen E fuel turns task (rounds plans) k = (k', rs) /\ works_ok k' /\
    (length (k_out k) + willing_rounds plans <= length (k_out k') \/ k_out k' = whole) /\
    (length whole < length (k_out k) + willing_rounds plans -> k_out k' = whole /\ k_mode k' = Finished).
Proof.
  intros turns plans. induction plans as [|plan plans IH]; intros k OK NZ LT.
  { exists k, []. split; [reflexivity|]. split; [exact OK|]. split; [left; cbn; lia|].
    destruct OK as (erest & wt & (_ & _ & _ & _ & _ & Q) & _). apply (f_equal (@length _)) in Q. rewrite app_length in Q.
    cbn [willing_rounds filter length]. lia. }
  change (rounds (plan :: plans)) with (Run :: Flush plan :: rounds plans). cbn [all_happen].
  destruct (@happen_ok turns Run k OK Logic.I LT) as (k1 & r1 & X1 & OK1 & L1 & _ & XR & _). rewrite X1.
  destruct (XR eq_refl) as (NA & _ & O1).
  destruct (@happen_ok turns (Flush plan) k1 OK1) as (k2 & r2 & X2 & OK2 & L2 & (sent & SN) & _ & XF);
    [apply NZ; left; reflexivity|lia|]. rewrite X2.
  destruct (XF plan eq_refl) as (_ & _ & FF & FP).
  destruct (IH k2 OK2) as (k3 & rs & X3 & OK3 & G3 & W3); [intros; apply NZ; right; assumption|lia|]. rewrite X3.
  exists k3, (r1 :: r2 :: rs). split; [reflexivity|]. split; [exact OK3|].
  assert (WR : willing_rounds (plan :: plans) = (if frugal plan then 1 else 0) + willing_rounds plans).
  { unfold willing_rounds, frugal. cbn [filter]. destruct plan as [|[n| |e] plan]; reflexivity. }
  assert (ST : frugal plan = true -> length (k_out k) < length (k_out k2) \/ (k_mode k2 = Finished /\ k_out k2 = whole)).
  { intro F1. rewrite <- O1. destruct (wb_content (k_wbuf k1)) as [|b c] eqn:C1; [right|left; apply FP; [exact F1|congruence]].
    destruct OK1 as (erest & wt & (HT & HS & OKb & CC & NE & Q) & HM).
    destruct (k_mode k1) eqn:M1; [congruence| |].
    - destruct HM as (_ & TC & _). elim (full_content OKb TC C1).
    - destruct HM as (TE & ID). split; [apply FF; reflexivity|].
      rewrite TE in HT. inversion HT; subst wt. unfold sender_ok in HS. rewrite ID in HS. destruct HS as [_ ->].
      rewrite C1 in Q. cbn in Q. rewrite app_nil_r in Q.
      assert (LQ : length (k_out k2) <= length whole).
      { destruct OK2 as (? & ? & (_ & _ & _ & _ & _ & Q2) & _). rewrite Q2, app_length. lia. }
      rewrite Q, SN in *. rewrite app_length in LQ. destruct sent; [apply app_nil_r|cbn in LQ; lia]. }
  assert (FIN : k_mode k2 = Finished -> k_out k2 = whole -> k_out k3 = whole /\ k_mode k3 = Finished).
  { clear - X3 OK2 NZ LT L2 L1 HR FU CAP. intros M2 O2.
    assert (NZ' : forall p, In p plans -> ~ In WrZero p) by (intros; apply NZ; right; assumption).
    assert (LT2 : length (k_todo k2) + 1 < turns) by lia. clear NZ LT L2 L1.
    revert k2 k3 rs X3 OK2 M2 O2 LT2. induction plans as [|q plans IH]; intros.
    - injection X3 as <- _. auto.
    - change (rounds (q :: plans)) with (Run :: Flush q :: rounds plans) in X3. cbn [all_happen] in X3.
      assert (R0 : happen E fuel turns task Run k2 = (k2, Ok tt)) by (unfold happen; now rewrite M2).
      rewrite R0 in X3.
      destruct (@happen_ok turns (Flush q) k2 OK2) as (k5 & r5 & X5 & OK5 & L5 & (sent & SN) & _ & XF);
        [apply NZ'; left; reflexivity|lia|]. rewrite X5 in X3.
      destruct (all_happen E fuel turns task (rounds plans) k5) as [k6 rs6] eqn:X6. injection X3 as <- _.
      apply (IH (fun p H => NZ' p (or_intror H)) k5 k6 rs6 X6 OK5).
      + now apply (XF q eq_refl).
      + destruct OK5 as (? & ? & (_ & _ & _ & _ & _ & Q2) & _). rewrite O2 in SN.
        apply (f_equal (@length _)) in Q2. rewrite SN in Q2. rewrite !app_length in Q2.
        destruct sent; [rewrite SN; apply app_nil_r|cbn in Q2; lia].
      + lia. }
  assert (LE2 : length (k_out k) <= length (k_out k2)) by (rewrite SN, <- O1, app_length; lia).
  split.
  - rewrite WR. destruct (frugal plan).
    + destruct (ST eq_refl) as [Z|(Z1 & Z2)]; [destruct G3; [left; lia|auto]|right; apply FIN; assumption].
    + destruct G3; [left; lia|auto].
  - rewrite WR. intro Z. destruct (frugal plan).
    + destruct (ST eq_refl) as [Z1|(Z1 & Z2)]; [apply W3; lia|apply FIN; assumption].
    + apply W3. lia.
Qed.
End System.

(** ** C100 *)

(** A producer with the messages [items] and a fresh encoder, and a new write buffer. *)
Definition start {A} (c : codec A) (items : list A) (inner : list byte) :=
  mkWorks items (enc_fresh c) (wb_new inner) [] Awake.

Lemma start_ok : forall A (c : codec A) ws items inner,
  wf c -> enc_again c = true -> Forall2 (wire c) ws items -> inner <> [] ->
  exists Pe f0, rests (encoder c) Pe /\ 0 < length inner /\ length inner <= f0 /\ forall fuel task, f0 < fuel ->
    works_ok (encoder c) Pe fuel (length inner) task (concat ws) (start c items inner).
Proof.
  intros A c ws items inner WF EA HW NI.
  pose proof (proj1 term_enc_ok A c WF) as EO. unfold code_enc_ok in EO. rewrite EA in EO.
  destruct (enc_ok_again EO) as (Pe & HE & E0 & RS). exists Pe.
  assert (K : exists f0, forall fuel, f0 < fuel ->
            Forall2 (sends_as (encoder c) Pe fuel (length inner)) ws items).
  { clear - HW HE. induction HW as [|w a ws items W HW (f0 & IH)].
    - exists 0. intros. constructor.
    - destruct (HE w a W) as (f1 & AC). exists (f0 + f1 + length inner). intros fuel LF.
      constructor; [|apply IH; lia]. exists f1. split; [lia|exact AC]. }
  destruct K as (f0 & K). exists (f0 + length inner). split; [exact RS|].
  split; [destruct inner; [congruence|cbn; lia]|]. split; [lia|]. intros fuel task LF. destruct (RS _ E0) as (ID & _).
  exists [], ws. cbn [start k_todo k_enc k_wbuf k_out k_mode]. split; [|exact Logic.I].
  split; [apply K; lia|]. split; [unfold sender_ok; rewrite ID; auto|].
  split; [unfold wb_ok, indices_ok; cbn; lia|]. split; [reflexivity|]. split; [discriminate|]. reflexivity.
Qed.

(** Whatever the runtime and the I/O loop do, in any order, and however much the connection takes at a time:
    - what is out is the beginning of the encodings, in order;
    - every call succeeds, except that [flush] reports the errors of the connection;
    - a producer that has returned [Ready] has put all it had into the buffer;
    - a producer that sleeps will not be forgotten: the buffer is not empty, and the [flush] that empties it wakes the producer. *)
Theorem C100_no_lost_wakeup : forall A (c : codec A) ws items inner,
  wf c -> enc_again c = true -> Forall2 (wire c) ws items -> inner <> [] ->
  exists f0, forall fuel turns task xs, f0 < fuel -> length items + 1 < turns -> (forall x, In x xs -> flushes x) ->
  exists k rs, all_happen (encoder c) fuel turns task xs (start c items inner) = (k, rs) /\
    (exists rest, concat ws = k_out k ++ wb_content (k_wbuf k) ++ rest /\ (k_mode k = Finished -> k_todo k = [] /\ rest = [])) /\
    (forall r, In r rs -> r = Ok tt \/ exists e plan, r = Err (reported_kind e) /\ In (Flush plan) xs /\ In (WrErr e) plan) /\
    (k_mode k = Asleep -> wb_content (k_wbuf k) <> [] /\
       forall plan, ~ In WrZero plan ->
         let k' := fst (happen (encoder c) fuel turns task (Flush plan) k) in
         (k_mode k' = Awake /\ wb_content (k_wbuf k') = []) \/ (k_mode k' = Asleep /\ wb_content (k_wbuf k') <> [])).
Proof.
  intros A c ws items inner WF EA HW NI.
  destruct (start_ok c WF EA HW NI) as (Pe & f0 & RS & CAP & LF0 & K). exists f0.
  intros fuel turns task xs LF LT FX. assert (FU : length inner < fuel) by lia.
  destruct (@all_happen_ok _ _ (encoder c) Pe fuel (length inner) task (concat ws) RS FU CAP turns xs (start c items inner)
              (K fuel task LF) FX LT) as (k & rs & X & OK & L & R).
  exists k, rs. split; [exact X|]. pose proof OK as (erest & wt & (HT & HS & OKb & CC & NE & Q) & HM). split; [|split].
  - eexists. split; [exact Q|]. intro M. rewrite M in HM. destruct HM as (TE & ID). split; [exact TE|].
    rewrite TE in HT. inversion HT; subst wt. unfold sender_ok in HS. rewrite ID in HS. destruct HS as [_ ->]. reflexivity.
  - exact R.
  - intro M. rewrite M in HM. destruct HM as (_ & TC & _). split; [eapply full_content; eassumption|].
    intros plan NZ.
    destruct (@happen_ok _ _ (encoder c) Pe fuel (length inner) task (concat ws) RS FU CAP turns (Flush plan) k OK NZ)
      as (k' & r & Y & _ & _ & _ & _ & XF); [cbn in L; lia|].
    rewrite Y. cbn [fst]. now apply (XF plan eq_refl).
Qed.
Print Assumptions C100_no_lost_wakeup.

(** So if the I/O loop goes on flushing, and the connection takes the first byte it is offered in more rounds than there are bytes,
    all is sent and the producer has finished, although it is only ever polled when it has been woken. *)
Theorem C100_delivers : forall A (c : codec A) ws items inner,
  wf c -> enc_again c = true -> Forall2 (wire c) ws items -> inner <> [] ->
  exists f0, forall fuel turns task plans, f0 < fuel -> length items + 1 < turns ->
  (forall plan, In plan plans -> ~ In WrZero plan) -> length (concat ws) < willing_rounds plans ->
  exists k rs, all_happen (encoder c) fuel turns task (rounds plans) (start c items inner) = (k, rs) /\
    k_out k = concat ws /\ k_mode k = Finished.
Proof.
  intros A c ws items inner WF EA HW NI.
  destruct (start_ok c WF EA HW NI) as (Pe & f0 & RS & CAP & LF0 & K). exists f0.
  intros fuel turns task plans LF LT NZ LW. assert (FU : length inner < fuel) by lia.
  destruct (@rounds_ok _ _ (encoder c) Pe fuel (length inner) task (concat ws) RS FU CAP turns plans (start c items inner)
              (K fuel task LF) NZ LT) as (k & rs & X & _ & _ & W).
  exists k, rs. split; [exact X|]. apply W. cbn [start k_out length]. lia.
Qed.
Print Assumptions C100_delivers.

(** Two messages through a buffer of 3 bytes. *)
Definition ex_start := start ex_tlv [ex_tlv_item; (8%N, [])] [x00; x00; x00].
Definition ex_rounds : list (list WrPlan) := [[WrErr IoWouldBlock]; [WrSome 0; WrErr IoInterrupted]; []; [WrSome 0; WrErr IoWouldBlock]; []; []; []; []; []; []; []].
Example C100_example :
  wf ex_tlv /\ enc_again ex_tlv = true /\ Forall2 (wire ex_tlv) [ex_tlv_bytes; [x08; x00; x00]] [ex_tlv_item; (8%N, [])] /\
  (forall plan, In plan ex_rounds -> ~ In WrZero plan) /\ length (ex_tlv_bytes ++ [x08; x00; x00]) < willing_rounds ex_rounds /\
  (exists k rs, all_happen (encoder ex_tlv) 99 9 7 (rounds (firstn 2 ex_rounds)) ex_start = (k, rs) /\
     k_mode k = Asleep /\ k_out k = firstn 1 ex_tlv_bytes /\ length (wb_content (k_wbuf k)) = 2 /\
     rs = [Ok tt; Ok tt; Ok tt; Err (reported_kind IoInterrupted)]) /\
  (exists k rs, all_happen (encoder ex_tlv) 99 9 7 (rounds ex_rounds) ex_start = (k, rs) /\
     k_mode k = Finished /\ k_out k = ex_tlv_bytes ++ [x08; x00; x00]).
Proof.
  split; [apply ex_tlv_wf|]. split; [reflexivity|].
  split; [constructor; [apply ex_tlv_wire1|constructor; [apply ex_tlv_wire2|constructor]]|].
  split; [cbn; intros plan H; repeat (destruct H as [<-|H]; [cbn; intuition discriminate|]); destruct H|].
  split; [vm_compute; lia|].
  split; eexists _, _; (split; [vm_compute; reflexivity|]); vm_compute; repeat split.
Qed.

(** [poll_flush] does not wake the producer. With it, a producer that sleeps is never woken, although the buffer is empty,
    the connection would take everything and there is more to send. *)
Theorem C100_poll_flush_refuted :
  exists k rs, all_happen (encoder ex_tlv) 99 9 7 [Run; PollFlush []] ex_start = (k, rs) /\
    k_mode k = Asleep /\ wb_content (k_wbuf k) = [] /\ length (k_out k) < length (ex_tlv_bytes ++ [x08; x00; x00]) /\
    forall xs, (forall plan, ~ In (Flush plan) xs) -> fst (all_happen (encoder ex_tlv) 99 9 7 xs k) = k.
Proof.
  eexists _, _. split; [vm_compute; reflexivity|]. split; [reflexivity|]. split; [reflexivity|]. split; [vm_compute; lia|].
  match goal with |- forall xs, _ -> fst (all_happen _ _ _ _ _ ?k) = _ => set (k0 := k) end.
  induction xs as [|x xs IH]; intro NF; [reflexivity|]. cbn [all_happen].
  assert (X : fst (happen (encoder ex_tlv) 99 9 7 x k0) = k0).
  { destruct x as [|plan|plan]; [reflexivity|elim (NF plan); left; reflexivity|reflexivity]. }
  destruct (happen (encoder ex_tlv) 99 9 7 x k0) as [k1 r1]. cbn [fst] in X. subst k1.
  specialize (IH (fun plan H => NF plan (or_intror H))).
  destruct (all_happen (encoder ex_tlv) 99 9 7 xs k0) as [k2 rs2]. exact IH.
Qed.
Print Assumptions C100_poll_flush_refuted.
