(** * C101: a service on an asynchronous connection, driven by [execute_io_poll]. *)
From Coq Require Import Lia ZifyBool ZifyNat ZifyN.
From Verif Require Import Service TruncProofs IoProofs LinkProofs DuplexProofs Universe UniverseProofs CodecProofs Examples Lib
  Props_Trunc Props_Io Props_Link Props_Receive Props_Task Props_TaskSend.
Set Implicit Arguments.

(** ** The state [WouldBlock] is never out of date: with it, the last [poll_fill] or [poll_flush] was pending. *)
Definition fresh_read (b : ReadBuf) : Prop := rb_state b = StWouldBlock -> rb_is_full b = false.
Definition fresh_write (b : WriteBuf) : Prop := wb_state b = StWouldBlock -> wb_is_empty b = false.

Lemma fill_fresh : forall fl b r b' r' p, fresh_read b -> rb_poll_fill_loop fl b r = (b', r', p) ->
  fresh_read b' /\ (rb_state b' = StWouldBlock -> p = Pending \/ p = Ready Panic \/ p = Ready OutOfFuel) /\
  (p = Pending -> rb_state b' = StWouldBlock).
Proof.
  induction fl as [|fl IH]; intros b r b' r' p FB H; cbn [rb_poll_fill_loop] in H;
    (destruct (rb_is_full b) eqn:FL; [injection H as <- <- <-; split; [exact FB|split; [intro Z; specialize (FB Z); congruence|discriminate]]|]).
  { injection H as <- <- <-. split; [exact FB|split; [auto|discriminate]]. }
  destruct (usize_sub (length (rb_inner b)) (rb_tail b)) as [room|]; [|injection H as <- <- <-; split; [exact FB|split; [auto|discriminate]]].
  destruct (poll_read r room) as [r1 [|[[|y l]|e]]].
  - injection H as <- <- <-. split; [intros _; exact FL|split; auto].
  - injection H as <- <- <-. split; [|split]; intro Z; discriminate Z.
  - refine (IH _ _ _ _ _ _ H). intro Z. discriminate Z.
  - injection H as <- <- <-. split; [|split]; intro Z; discriminate Z.
Qed.
Lemma consume_fresh : forall b k, rb_ok b -> k <= length (rb_content b) -> 0 < rb_capacity b -> fresh_read b -> fresh_read (rb_consume b k).
Proof.
  intros b k OK LK CAP FB. unfold rb_consume. destruct (rb_head b + k =? rb_tail b); intro Z; cbn in Z |- *.
  - unfold rb_is_full. cbn. unfold rb_capacity in CAP. destruct (length (rb_inner b)); [lia|reflexivity].
  - exact (FB Z).
Qed.
Lemma flush_fresh : forall fl b w b' w' p, fresh_write b -> wb_poll_flush_loop fl b w = (b', w', p) ->
  fresh_write b' /\ (wb_state b' = StWouldBlock -> p = Pending \/ p = Ready Panic \/ p = Ready OutOfFuel) /\
  (p = Pending -> wb_state b' = StWouldBlock).
Proof.
  induction fl as [|fl IH]; intros b w b' w' p FB H; cbn [wb_poll_flush_loop] in H;
    (destruct (wb_is_empty b) eqn:FL; [injection H as <- <- <-; split; [exact FB|split; [intro Z; specialize (FB Z); congruence|discriminate]]|]).
  { injection H as <- <- <-. split; [exact FB|split; [auto|discriminate]]. }
  destruct (window (wb_inner b) (wb_head b) (wb_tail b)) as [d|]; [|injection H as <- <- <-; split; [exact FB|split; [auto|discriminate]]].
  destruct (poll_write w d) as [w1 [|[[|n]|e]]].
  - injection H as <- <- <-. split; [intros _; exact FL|split; auto].
  - injection H as <- <- <-. split; [|split]; intro Z; discriminate Z.
  - refine (IH _ _ _ _ _ _ H). intro Z. unfold wb_advance in Z. destruct (_ =? _); discriminate Z.
  - injection H as <- <- <-. split; [|split]; intro Z; discriminate Z.
Qed.

Section Loop.
Context {Sd Se I J : Type} (D : Decoder Sd I) (E : Encoder Se J) (reply : I -> J).
Context (g : bool) (P : Sd -> Prop) (F : format I) (Pe : Se -> Prop) (fuel rcap wcap : nat).
Hypotheses (HD : forall s w i, P s -> F w i -> cuts D SD g P s w i)
           (HB : forall s, P s -> dec_idle D s = false)
           (HR : rests E Pe) (RFU : rcap < fuel) (RCAP : 0 < rcap) (CM : (N.of_nat rcap <= isize_max)%N)
           (WFU : wcap < fuel) (WCAP : 0 < wcap).
Variables (t u : list byte) (a : I) (msgs rws : list (list byte)) (items : list I).
Hypotheses (NU : u <> []) (CUT : F (t ++ u) a).
Notation service := (service (MaybeEos Sd) Se I J).
Notation input v := (rb_content (ab_rbuf (v_io v)) ++ ar_data (ab_rd (v_io v))).
Notation output v := (aw_data (ab_wr (v_io v))).
Notation rplan v := (ar_plan (ab_rd (v_io v))).
Notation wplan v := (aw_plan (ab_wr (v_io v))).

(** What is out is the beginning of the replies to the requests received. *)
Definition answers (v : service) : Prop := exists pend gw wp rest,
  items = v_got v ++ pend /\ rws = gw ++ wp /\ length gw = length (v_got v) /\ concat gw = output v ++ rest.

(** The state between two turns; [n] bounds the turns without a pending answer. *)
Definition serves (n : nat) (v : service) : Prop :=
  exists dn ws pend gw wp erest wt,
    msgs = dn ++ ws /\ length dn = length (v_got v) /\ items = v_got v ++ pend /\ rws = gw ++ wp /\ length gw = length (v_got v) /\
    holds D g P F rcap t u a (ab_rbuf (v_io v)) (v_dec v) (ab_rd (v_io v)) pend ws /\ fresh_read (ab_rbuf (v_io v)) /\
    owes E Pe fuel wcap (concat gw) (v_todo v) (v_enc v) (ab_wbuf (v_io v)) (ab_wr (v_io v)) erest wt /\
    fresh_write (ab_wbuf (v_io v)) /\ Forall2 (sends_as E Pe fuel wcap) wp (map reply pend) /\
    n = length (input v) + length (wb_content (ab_wbuf (v_io v))) + 2 * (length erest + length (concat wt) + length (concat wp)) +
        2 * (length (v_todo v) + length pend) + (if enc_idle E (v_enc v) then 0 else 1).

Lemma serves_answers : forall n v, serves n v -> answers v.
Proof.
  intros n v (dn & ws & pend & gw & wp & erest & wt & Q1 & Q2 & Q3 & Q4 & Q5 & _ & _ & (_ & _ & _ & _ & _ & _ & Q6) & _).
  exists pend, gw, wp. eexists. split; [exact Q3|]. split; [exact Q4|]. split; [exact Q5|]. exact Q6.
Qed.

(** From [v] to [v']: the answers used up, and what was read. *)
Definition onward (v v' : service) (ru : list (option RdPlan)) (wu : list (option WrPlan)) : Prop :=
  rplan v = ru ++ rplan v' /\ wplan v = wu ++ wplan v' /\ exists taken, input v = taken ++ input v'.

Definition ended (v : service) : Prop := input v = [] /\ rb_state (ab_rbuf (v_io v)) = StEos.
(** All replies to the requests received are out. *)
Definition all_out (v : service) : Prop := exists gw wp, rws = gw ++ wp /\ length gw = length (v_got v) /\ output v = concat gw.

Definition outcome (v v' : service) (ru : list (option RdPlan)) (wu : list (option WrPlan)) (o : Poll (res unit)) : Prop :=
  (o = Pending /\ rb_content (ab_rbuf (v_io v')) = [] /\ (ended v' \/ exists u', ru = u' ++ [None]) /\ (all_out v' \/ exists u', wu = u' ++ [None]) /\
     ((exists u', ru = u' ++ [None]) \/ (exists u', wu = u' ++ [None]))) \/
  (o = Ready (Ok tt) /\ v_got v' = items /\ t = [] /\ output v' = concat rws) \/
  (o = Ready (Err UnexpectedEos) /\ (v_got v' = items /\ t <> [] \/ In (Some WrZero) (wplan v))) \/
  (exists k, o = Ready (Err k) /\ (poll_failed (rplan v) k \/ exists e, In (Some (WrErr e)) (wplan v) /\ k = reported_kind e)).

Definition weight (todo : list J) (s : Se) (wb : WriteBuf) (erest : list byte) (wt : list (list byte)) : nat :=
  length (wb_content wb) + 2 * (length erest + length (concat wt)) + 2 * length todo + (if enc_idle E s then 0 else 1).

(** The second half of a turn: the next reply, and its bytes. *)
Lemma send_half : forall whole todo s wb w erest wt, owes E Pe fuel wcap whole todo s wb w erest wt ->
  exists todo2 e1 e2 wb' erest' wt',
    (match todo with
     | i :: todo' => if enc_idle E s then let '(e', r) := enc_start E fuel s i in (todo', e', r) else (todo, s, Ok tt)
     | [] => ([], s, Ok tt)
     end) = (todo2, e1, Ok tt) /\
    encode_to_write_buf E fuel e1 wb = (e2, wb', Ok tt) /\ owes E Pe fuel wcap whole todo2 e2 wb' w erest' wt' /\
    wb_state wb' = wb_state wb /\ (wb_is_empty wb = false -> wb_is_empty wb' = false) /\
    weight todo2 e2 wb' erest' wt' <= weight todo s wb erest wt /\
    (wb_content wb = [] -> weight todo2 e2 wb' erest' wt' < weight todo s wb erest wt \/
       enc_idle E e2 && (match todo2 with [] => true | _ => false end) && wb_is_empty wb' = true) /\
    (enc_idle E e2 && (match todo2 with [] => true | _ => false end) && wb_is_empty wb' = true -> whole = aw_data w).
Proof.
  intros whole todo s wb w erest wt HO.
  assert (ST : exists todo2 e1 er1 wt1,
    (match todo with
     | i :: todo' => if enc_idle E s then let '(e', r) := enc_start E fuel s i in (todo', e', r) else (todo, s, Ok tt)
     | [] => ([], s, Ok tt)
     end) = (todo2, e1, Ok tt) /\ owes E Pe fuel wcap whole todo2 e1 wb w er1 wt1 /\
    (weight todo2 e1 wb er1 wt1 < weight todo s wb erest wt \/
     weight todo2 e1 wb er1 wt1 = weight todo s wb erest wt /\ (enc_idle E e1 = true -> todo2 = []))).
  { destruct HO as (HT & HS & OK & CC & NE & RR & Q). destruct todo as [|i todo].
    { exists [], s, erest, wt. split; [reflexivity|]. split; [repeat split; auto; apply OK|]. auto. }
    destruct (enc_idle E s) eqn:ID.
    - inversion HT as [|w0 i' wt' todo' (f1 & LF & AC) HT' Q1 Q2]; subst.
      unfold sender_ok in HS. rewrite ID in HS. destruct HS as [PS ->].
      destruct (AC s PS fuel) as (s' & ST & EM); [lia|]. rewrite ST.
      exists todo, s', w0, wt'. split; [reflexivity|]. split.
      + split; [exact HT'|]. split; [eapply sender_emits; eassumption|]. repeat split; auto; apply OK.
      + left. unfold weight. rewrite ID. cbn [concat length app]. rewrite app_length. destruct (enc_idle E s'); lia.
    - exists (i :: todo), s, erest, wt. split; [reflexivity|]. split; [repeat split; auto; apply OK|].
      right. split; [reflexivity|]. congruence. }
  destruct ST as (todo2 & e1 & er1 & wt1 & X & HO1 & WT). exists todo2, e1.
  destruct HO1 as (HT & HS & OK & CC & NE & RR & Q).
  destruct (@encode_once _ _ E Pe fuel wcap HR WFU WCAP e1 wb er1 HS OK CC NE) as (e2 & wb' & k & Y & LK & OK1 & CC1 & ST1 & C1 & HS2 & ID1 & ID2).
  exists e2, wb', (skipn k er1), wt1. split; [exact X|]. split; [exact Y|].
  assert (HO2 : owes E Pe fuel wcap whole todo2 e2 wb' w (skipn k er1) wt1).
  { split; [exact HT|]. split; [exact HS2|]. split; [exact OK1|]. split; [exact CC1|]. split; [congruence|]. split; [exact RR|].
    rewrite Q, C1, <- !app_assoc. do 2 f_equal. rewrite app_assoc, firstn_skipn. reflexivity. }
  split; [exact HO2|]. split; [exact ST1|].
  assert (WL : weight todo2 e2 wb' (skipn k er1) wt1 + k <= weight todo2 e1 wb er1 wt1 /\
               (enc_idle E e1 = false -> enc_idle E e2 = true -> weight todo2 e2 wb' (skipn k er1) wt1 < weight todo2 e1 wb er1 wt1)).
  { unfold weight. rewrite C1, app_length, firstn_length, skipn_length.
    destruct (enc_idle E e1) eqn:I1; [rewrite ID1 by reflexivity|destruct (enc_idle E e2)]; split; intros; try lia; try congruence. }
  destruct WL as [WL WL2]. split.
  { intro Z. apply not_true_is_false. intro Z'. apply (content_empty OK1) in Z'. fold (wb_content wb') in Z'. rewrite C1 in Z'.
    apply app_eq_nil in Z' as [Z' _]. assert (wb_is_empty wb = true) by (apply (content_empty OK); exact Z'). congruence. }
  split; [destruct WT as [WT|[WT _]]; lia|]. split.
  - intro CE. destruct WT as [WT|[WT TD]]; [left; lia|].
    destruct (enc_idle E e1) eqn:I1.
    + right. rewrite ID1 by reflexivity. rewrite (TD eq_refl). cbn [andb].
      unfold sender_ok in HS. rewrite I1 in HS. destruct HS as [_ ->]. rewrite CE in C1. rewrite firstn_nil in C1.
      apply (content_empty OK1). exact C1.
    + left. destruct (ID2 eq_refl CE) as [K0|I2]; [lia|specialize (WL2 eq_refl I2); lia].
  - intro Z. apply andb_true_iff in Z as [Z Z3]. apply andb_true_iff in Z as [Z1 Z2].
    destruct HO2 as (HT2 & HS2' & _ & _ & _ & _ & Q2). destruct todo2; [|discriminate]. inversion HT2; subst wt1.
    unfold sender_ok in HS2'. rewrite Z1 in HS2'. destruct HS2' as [_ E0]. rewrite E0 in Q2.
    assert (C0 : wb_content wb' = []) by (apply (content_empty OK1); exact Z3).
    rewrite C0 in Q2. cbn in Q2. rewrite app_nil_r in Q2. exact Q2.
Qed.

Lemma serve_turn_ok : forall n v, serves n v ->
  exists v' o ru wu, serve_turn (maybe_decoder D) E reply fuel v = (v', o) /\ answers v' /\ onward v v' ru wu /\
    match o with
    | None => exists n', serves n' v' /\ n' < n
    | Some o => outcome v v' ru wu o /\ (o = Pending -> exists n', serves n' v' /\ n' <= n)
    end.
Proof.
  intros n [[r w rb wb] st enc todo got] (dn & ws & pend & gw & wp & erest & wt & QM & LD & QI & QR & LG & HH & FR & HO & FW & HP & ->).
  cbn [v_io v_dec v_enc v_todo v_got ab_rd ab_wr ab_rbuf ab_wbuf] in *.
  destruct HH as (OK & CC & EO & RR & NZ & W). destruct HO as (HT & HS & WOK & WCC & WNE & WRR & Q).
  unfold serve_turn, ab_execute_poll. cbn [v_io v_dec v_enc v_todo v_got ab_rd ab_wr ab_rbuf ab_wbuf].
  destruct (rb_poll_fill rb r) as [[rb1 r1] p] eqn:FI.
  destruct (@poll_once _ _ D g P F fuel rcap HD RFU RCAP CM a _ _ _ _ _ OK CC FI RR NZ EO)
    as (OK1 & C1 & Q1 & EO1 & RES & (used & QU & UP) & WI).
  destruct (fill_fresh _ _ FR FI) as (FR1 & WB1 & PB1).
  destruct (wb_poll_flush wb w) as [[wb1 w1] q] eqn:FL.
  destruct (@flush_once _ _ _ _ _ WOK WRR WNE FL) as (WOK1 & WCC1 & DA & LC & (wused & WQU & WUP) & WCases).
  destruct (flush_fresh _ _ FW FL) as (FW1 & WWB1 & PWB1).
  assert (RR1 : ready_means_ready r1) by (intro Z; apply RR; rewrite QU; apply in_or_app; auto).
  assert (NZ1 : ~ In (Some RdZero) (ar_plan r1)) by (intro Z; apply NZ; rewrite QU; apply in_or_app; auto).
  assert (WRR1 : wready_means_ready w1) by (intro Z; apply WRR; rewrite WQU; apply in_or_app; auto).
  assert (Q' : concat gw = aw_data w1 ++ wb_content wb1 ++ erest ++ concat wt).
  { rewrite Q, !app_assoc, DA. reflexivity. }

  assert (ANS : forall sd se td rb' wb', answers (mkService (mkABufferedIo r1 w1 rb' wb') sd se td got)).
  { intros. exists pend, gw, wp. eexists. cbn [v_got v_io ab_wr]. split; [exact QI|]. split; [exact QR|]. split; [exact LG|exact Q']. }
  destruct RES as [RES|(e & NW & IN & ->)].
  2:{ replace (match q with Pending => _ | Ready _ => _ end) with (@Ready (res unit) (Err (reported_kind e))) by (destruct q; reflexivity).
      cbn [sync_result]. eexists _, _, used, wused. split; [reflexivity|]. split; [apply ANS|].
      split; [repeat split; [exact QU|exact WQU|exists []; exact Q1]|]. split; [|discriminate].
      right; right; right. eexists. split; [reflexivity|]. left. exists e. auto. }
  match goal with |- context [sync_result ?x] =>
    replace (sync_result x) with (sync_result q) by (destruct p as [|[[]| | |]]; try discriminate RES; destruct q; reflexivity) end.
  assert (WX : (sync_result q = Ok tt /\ wb_state wb1 <> StEos /\ (q = Pending \/ wb_content wb1 = [])) \/
               (q = Ready (Ok tt) /\ wb_state wb1 = StEos /\ In (Some WrZero) (aw_plan w)) \/
               (exists e, In (Some (WrErr e)) (aw_plan w) /\ q = Ready (Err (reported_kind e)))).
  { destruct WCases as [(-> & CN & SN)|[(-> & CN & SN)|[X|X]]]; auto. }
  clear WCases. destruct WX as [(SQ & SN & QC)|[(-> & SE & IN)|(e & IN & ->)]].
  2:{ cbn [sync_result ab_wbuf]. rewrite SE. cbn [st_is_eos]. eexists _, _, used, wused. split; [reflexivity|]. split; [apply ANS|].
      split; [repeat split; [exact QU|exact WQU|exists []; exact Q1]|]. split; [|discriminate].
      right; right; left. split; [reflexivity|]. right. exact IN. }
  2:{ cbn [sync_result]. eexists _, _, used, wused. split; [reflexivity|]. split; [apply ANS|].
      split; [repeat split; [exact QU|exact WQU|exists []; exact Q1]|]. split; [|discriminate].
      right; right; right. eexists. split; [reflexivity|]. right. exists e. auto. }
  rewrite SQ. cbn [ab_rd ab_wr ab_rbuf ab_wbuf].
  replace (st_is_eos (wb_state wb1)) with false by (destruct (wb_state wb1); try reflexivity; congruence).
  unfold decode_from_read_buf. rewrite (window_some OK1). fold (rb_content rb1). rewrite Q1 in W.
  destruct (@decode_once _ _ D g P F fuel rcap HD HB RFU RCAP CM t u a NU CUT st pend ws (rb_content rb1) (ar_data r1)
              (eos_new (st_is_eos (rb_state rb1))) W) as (st' & x & Y & Cases).
  { destruct (rb_state rb1) eqn:SE; [left|right|left|left]; cbn; auto. }
  { unfold rb_content. rewrite stretch_length by apply OK1. pose proof OK1 as [L _]. unfold rb_capacity in C1. lia. }
  rewrite Y. destruct Cases as [(k & -> & LK & PK & Cases)|(-> & -> & NT)].
  2:{ cbn [rcast]. eexists _, _, used, wused. split; [reflexivity|]. split; [apply ANS|].
      split; [repeat split; [exact QU|exact WQU|exists []; exact Q1]|]. split; [|discriminate].
      right; right; left. split; [reflexivity|]. left. cbn [v_got]. rewrite app_nil_r in QI. auto. }
  destruct (consume_ok OK1 LK) as (OK2 & C2 & CC2 & S2).
  assert (FR2 : fresh_read (rb_consume rb1 k)) by (apply consume_fresh; auto; lia).
  assert (LQ : length (rb_content (rb_consume rb1 k) ++ ar_data r1) + k = length (rb_content rb ++ ar_data r)).
  { rewrite Q1, C2, !app_length, skipn_length. lia. }
  assert (TK : rb_content rb ++ ar_data r = firstn k (rb_content rb1) ++ rb_content (rb_consume rb1 k) ++ ar_data r1).
  { rewrite Q1, C2, app_assoc, firstn_skipn. reflexivity. }
  assert (WW0 : weight todo enc wb1 erest wt <= weight todo enc wb erest wt) by (unfold weight; lia).
  cbn [dec_idle maybe_decoder].
  destruct Cases as [(ID & KL & WW & NOP)|(ID & NB & i & is & w0 & ws' & s2 & -> & -> & FN & WW)]; rewrite ID.
  - assert (HO1 : owes E Pe fuel wcap (concat gw) todo enc wb1 w1 erest wt).
    { split; [exact HT|]. split; [exact HS|]. split; [exact WOK1|]. split; [congruence|]. auto. }
    destruct (@send_half _ _ _ _ _ _ _ HO1) as (todo2 & e1 & e2 & wb2 & erest' & wt' & X1 & X2 & HO2 & ST2 & NE2 & WL & WD & WS).
    rewrite X1, X2. set (sent := enc_idle E e2 && match todo2 with [] => true | _ => false end && wb_is_empty wb2) in *.
    assert (C0 : rb_content (rb_consume rb1 k) = []) by (rewrite C2, KL; apply skipn_all).
    set (v' := mkService (mkABufferedIo r1 w1 (rb_consume rb1 k) wb2) st' e2 todo2 got).
    assert (SV : exists n', serves n' v' /\ n' + weight todo enc wb1 erest wt + k <=
        length (rb_content rb ++ ar_data r) + weight todo2 e2 wb2 erest' wt' + 2 * length (concat wp) + 2 * length pend + weight todo enc wb1 erest wt).
    { eexists. split.
      - exists dn, ws, pend, gw, wp, erest', wt'. unfold v'. cbn [v_io v_dec v_enc v_todo v_got ab_rd ab_wr ab_rbuf ab_wbuf].
        do 5 (split; [assumption|]).
        split; [split; [exact OK2|]; split; [congruence|]; split; [rewrite S2; exact EO1|]; split; [exact RR1|]; split; [exact NZ1|]; rewrite C2; exact WW|].
        split; [exact FR2|]. split; [exact HO2|]. split; [|split; [exact HP|reflexivity]].
        intro Z. rewrite ST2 in Z. auto.
      - cbv beta. unfold weight. lia. }
    assert (AN : answers v').
    { destruct SV as (n' & SV & _). eapply serves_answers; exact SV. }
    assert (ON : onward (mkService (mkABufferedIo r w rb wb) st enc todo got) v' used wused).
    { split; [exact QU|]. split; [exact WQU|]. exists (firstn k (rb_content rb1)). exact TK. }
    assert (AO : sent = true -> all_out v').
    { intro Z. exists gw, wp. split; [exact QR|]. split; [exact LG|]. symmetry. exact (WS Z). }
    assert (WP : st_would_block (wb_state wb2) = true -> exists u', wused = u' ++ [None]).
    { intro Z. apply WUP. rewrite ST2 in Z. destruct (wb_state wb1) eqn:Z'; try discriminate Z.
      destruct (WWB1 eq_refl) as [H|[H|H]]; [exact H| |]; rewrite H in SQ; discriminate SQ. }
    assert (RP : st_would_block (rb_state (rb_consume rb1 k)) = true -> exists u', used = u' ++ [None]).
    { intro Z. apply UP. rewrite S2 in Z. destruct (rb_state rb1) eqn:Z'; try discriminate Z.
      destruct (WB1 eq_refl) as [H|[H|H]]; [exact H| |]; rewrite H in RES; discriminate RES. }
    assert (NW : sent || st_would_block (wb_state wb2) = false -> weight todo2 e2 wb2 erest' wt' < weight todo enc wb1 erest wt).
    { intro Z. apply orb_false_iff in Z as [Z1 Z2]. destruct QC as [->|CE].
      - rewrite ST2, (PWB1 eq_refl) in Z2. discriminate Z2.
      - destruct (WD CE) as [H|H]; [exact H|congruence]. }
    destruct (rb_is_empty rb1 && st_is_eos (rb_state rb1)) eqn:OV.
    + apply andb_true_iff in OV as [E1 E2]. apply (content_empty OK1) in E1.
      destruct (NOP E1) as [-> T0]; [rewrite E2; reflexivity|].
      inversion HP; subst wp. rewrite app_nil_r in QR, QI.
      assert (SE : rb_state rb1 = StEos) by (destruct (rb_state rb1); try discriminate E2; reflexivity).
      assert (EN : ended v').
      { split; [unfold v'; cbn [v_io ab_rbuf ab_rd]; rewrite C0, (EO1 SE); reflexivity|]. unfold v'. cbn. congruence. }
      cbn [andb orb]. destruct sent eqn:SN'.
      * exists v', (Some (Ready (Ok tt))), used, wused. split; [reflexivity|]. split; [exact AN|]. split; [exact ON|].
        split; [|discriminate]. right; left. split; [reflexivity|]. split; [symmetry; exact QI|]. split; [exact T0|].
        unfold v'. cbn. rewrite <- (WS eq_refl). congruence.
      * cbn [orb]. destruct (st_would_block (wb_state wb2)) eqn:BL.
        -- exists v', (Some Pending), used, wused. split; [reflexivity|]. split; [exact AN|]. split; [exact ON|].
           split; [|intros _; destruct SV as (n' & SV & LN); exists n'; split; [exact SV|unfold weight in *; lia]].
           left. split; [reflexivity|]. split; [exact C0|]. split; [auto|]. split; [right; auto|]. right; auto.
        -- exists v', None, used, wused. split; [reflexivity|]. split; [exact AN|]. split; [exact ON|].
           destruct SV as (n' & SV & LN). exists n'. split; [exact SV|]. specialize (NW eq_refl). unfold weight in *. lia.
    + cbn [andb orb negb]. destruct (st_would_block (rb_state (rb_consume rb1 k))) eqn:RB.
      * cbn [andb]. destruct (sent || st_would_block (wb_state wb2)) eqn:WB.
        -- exists v', (Some Pending), used, wused. split; [reflexivity|]. split; [exact AN|]. split; [exact ON|].
           split; [|intros _; destruct SV as (n' & SV & LN); exists n'; split; [exact SV|unfold weight in *; lia]].
           left. split; [reflexivity|]. split; [exact C0|]. split; [auto|].
           split; [apply orb_true_iff in WB as [WB|WB]; [left; auto|right; auto]|]. left; auto.
        -- exists v', None, used, wused. split; [reflexivity|]. split; [exact AN|]. split; [exact ON|].
           destruct SV as (n' & SV & LN). exists n'. split; [exact SV|]. specialize (NW eq_refl). unfold weight in *. lia.
      * cbn [andb]. exists v', None, used, wused. split; [reflexivity|]. split; [exact AN|]. split; [exact ON|].
        destruct SV as (n' & SV & LN). exists n'. split; [exact SV|].
        assert (K0 : 0 < k).
        { apply PK. intro CE. destruct p as [|y]; [rewrite S2, (PB1 eq_refl) in RB; discriminate RB|].
          cbn in RES. subst y. specialize (WI eq_refl CE). apply (content_empty OK1) in CE.
          fold (rb_is_empty rb1) in CE. rewrite CE, WI in OV. discriminate. }
        unfold weight in *. lia.
  - rewrite FN. inversion HP as [|w0' j wp' js SA HP' E1 E2]; subst wp j js.
    assert (HO1 : owes E Pe fuel wcap (concat (gw ++ [w0'])) (todo ++ [reply i]) enc wb1 w1 erest (wt ++ [w0'])).
    { split; [apply Forall2_app; [exact HT|constructor; [exact SA|constructor]]|]. split; [exact HS|]. split; [exact WOK1|].
      split; [congruence|]. split; [exact SN|]. split; [exact WRR1|].
      rewrite !concat_app, Q'. rewrite <- !app_assoc. reflexivity. }
    destruct (@send_half _ _ _ _ _ _ _ HO1) as (todo2 & e1 & e2 & wb2 & erest' & wt' & X1 & X2 & HO2 & ST2 & NE2 & WL & WD & WS).
    rewrite X1, X2.
    replace (rb_is_empty rb1) with false
      by (symmetry; apply not_true_is_false; intro Z; apply NB, (content_empty OK1); exact Z).
    cbn [andb orb negb]. eexists _, None, used, wused. split; [reflexivity|].
    specialize (PK NB).
    match goal with |- answers ?v /\ _ => set (v' := v) end.
    assert (SV : exists n', serves n' v' /\ n' + k <=
        length (rb_content rb ++ ar_data r) + weight todo2 e2 wb2 erest' wt' + 2 * length (concat wp') + 2 * length is).
    { eexists. split.
      - exists (dn ++ [w0]), ws', is, (gw ++ [w0']), wp', erest', wt'. unfold v'. cbn [v_io v_dec v_enc v_todo v_got ab_rd ab_wr ab_rbuf ab_wbuf].
        rewrite <- !app_assoc. cbn [app]. split; [exact QM|]. split; [rewrite !app_length; cbn [length]; lia|]. split; [exact QI|].
        split; [exact QR|]. split; [rewrite !app_length; cbn [length]; lia|].
        split; [split; [exact OK2|]; split; [congruence|]; split; [rewrite S2; exact EO1|]; split; [exact RR1|]; split; [exact NZ1|]; rewrite C2; exact WW|].
        split; [exact FR2|]. split; [exact HO2|]. split; [|split; [exact HP'|reflexivity]].
        intro Z. rewrite ST2 in Z. auto.
      - cbv beta. unfold weight, v'. cbn [v_io v_dec v_enc v_todo v_got ab_rd ab_wr ab_rbuf ab_wbuf]. lia. }
    destruct SV as (n' & SV & LN). split; [eapply serves_answers; exact SV|].
    split; [split; [exact QU|]; split; [exact WQU|]; exists (firstn k (rb_content rb1)); exact TK|].
    exists n'. split; [exact SV|]. unfold weight in *. rewrite !concat_app, !app_length in WL. cbn [concat length] in *.
    rewrite !app_length in *. cbn [length] in *. lia.
Qed.

Lemma onward_trans : forall v v1 v2 r1 w1 r2 w2, onward v v1 r1 w1 -> onward v1 v2 r2 w2 -> onward v v2 (r1 ++ r2) (w1 ++ w2).
Proof.
  intros v v1 v2 r1 w1 r2 w2 (A1 & A2 & t1 & A3) (B1 & B2 & t2 & B3).
  split; [rewrite A1, B1, app_assoc; reflexivity|]. split; [rewrite A2, B2, app_assoc; reflexivity|].
  exists (t1 ++ t2). rewrite A3, B3, <- !app_assoc. reflexivity.
Qed.
Lemma snoc_app : forall A (a b : list (option A)), (exists u', b = u' ++ [None]) -> exists u', a ++ b = u' ++ [None].
Proof. intros A x b (u' & ->). exists (x ++ u'). now rewrite app_assoc. Qed.
Lemma outcome_trans : forall v v1 v2 r1 w1 r2 w2 o, onward v v1 r1 w1 -> outcome v1 v2 r2 w2 o -> outcome v v2 (r1 ++ r2) (w1 ++ w2) o.
Proof.
  intros v v1 v2 r1 w1 r2 w2 o (A1 & A2 & _) H. unfold outcome. rewrite A1, A2.
  assert (M1 : forall x, In x (rplan v1) -> In x (r1 ++ rplan v1)) by (intros; apply in_or_app; auto).
  assert (M2 : forall x, In x (wplan v1) -> In x (w1 ++ wplan v1)) by (intros; apply in_or_app; auto).
  destruct H as [(-> & C & X1 & X2 & X3)|[X|[(-> & [X|X])|(k & -> & [(e & X1 & X2)|(e & X1 & X2)])]]].
  - left. split; [reflexivity|]. split; [exact C|].
    split; [destruct X1; [auto|right; apply snoc_app; assumption]|].
    split; [destruct X2; [auto|right; apply snoc_app; assumption]|].
    destruct X3; [left|right]; apply snoc_app; assumption.
  - auto.
  - auto 10.
  - auto 10.
  - right; right; right. exists k. split; [reflexivity|]. left. exists e. auto.
  - right; right; right. exists k. split; [reflexivity|]. right. exists e. auto.
Qed.

Lemma serve_poll_ok : forall turns n v, serves n v -> n < turns ->
  exists v' o ru wu, serve_poll (maybe_decoder D) E reply fuel turns v = (v', o) /\ answers v' /\ onward v v' ru wu /\
    outcome v v' ru wu o /\ (o = Pending -> exists n', serves n' v' /\ n' <= n).
Proof.
  induction turns as [|turns IH]; intros n v HV LT; [lia|]. cbn [serve_poll].
  destruct (serve_turn_ok HV) as (v1 & o1 & r1 & w1 & X & AN & ON & Y). rewrite X.
  destruct o1 as [o|].
  - destruct Y as [Y1 Y2]. exists v1, o, r1, w1. auto.
  - destruct Y as (n' & HV' & LN). destruct (IH n' v1 HV') as (v2 & o & r2 & w2 & X2 & AN2 & ON2 & OU & NX); [lia|].
    exists v2, o, (r1 ++ r2), (w1 ++ w2). split; [exact X2|]. split; [exact AN2|]. split; [eapply onward_trans; eassumption|].
    split; [eapply outcome_trans; eassumption|]. intro Z. destruct (NX Z) as (n2 & A & B). exists n2. split; [exact A|lia].
Qed.

Lemma serve_task_snoc : forall (D' : Decoder (MaybeEos Sd) I) turns polls v,
  serve_task D' E reply fuel turns (S polls) v =
  match serve_task D' E reply fuel turns polls v with (v', Pending) => serve_poll D' E reply fuel turns v' | y => y end.
Proof.
  intros D' turns polls. induction polls as [|polls IH]; intro v.
  - cbn. destruct (serve_poll D' E reply fuel turns v) as [v' [|x]]; reflexivity.
  - change (serve_task D' E reply fuel turns (S (S polls)) v) with
      (match serve_poll D' E reply fuel turns v with (v', Pending) => serve_task D' E reply fuel turns (S polls) v' | y => y end).
    cbn [serve_task]. destruct (serve_poll D' E reply fuel turns v) as [v' [|x]]; [|reflexivity]. apply IH.
Qed.

Lemma outcome_pendings : forall v v' ru wu, outcome v v' ru wu Pending -> 1 <= pendings ru + wpendings wu.
Proof.
  intros v v' ru wu [(_ & _ & _ & _ & [(u' & ->)|(u' & ->)])|[(Z & _)|[(Z & _)|(k & Z & _)]]]; try discriminate.
  - rewrite pendings_app. cbn. lia.
  - rewrite wpendings_app. cbn. lia.
Qed.

Lemma serve_task_ok : forall turns n v, serves n v -> rb_content (ab_rbuf (v_io v)) = [] -> n < turns ->
  forall polls, exists v' o ru wu, serve_task (maybe_decoder D) E reply fuel turns polls v = (v', o) /\ answers v' /\ onward v v' ru wu /\
    ((o = Pending /\ (exists n', serves n' v' /\ n' <= n) /\ rb_content (ab_rbuf (v_io v')) = [] /\ polls <= pendings ru + wpendings wu) \/
     (o <> Pending /\ outcome v v' ru wu o)).
Proof.
  intros turns n v HV C0 LT polls. induction polls as [|polls IH].
  { exists v, Pending, [], []. split; [reflexivity|]. split; [eapply serves_answers; exact HV|].
    split; [repeat split; exists []; reflexivity|]. left. split; [reflexivity|]. split; [exists n; auto|]. split; [exact C0|cbn; lia]. }
  rewrite serve_task_snoc. destruct IH as (v1 & o1 & r1 & w1 & X & AN & ON & Y). rewrite X.
  destruct Y as [(-> & (n1 & HV1 & L1) & C1 & NP)|(NO & OU)].
  - destruct (serve_poll_ok HV1 (turns := turns)) as (v2 & o & r2 & w2 & X2 & AN2 & ON2 & OU2 & NX); [lia|].
    exists v2, o, (r1 ++ r2), (w1 ++ w2). split; [exact X2|]. split; [exact AN2|]. split; [eapply onward_trans; eassumption|].
    destruct o as [|x].
    + left. split; [reflexivity|]. destruct (NX eq_refl) as (n2 & A & B). split; [exists n2; split; [exact A|lia]|].
      pose proof (outcome_pendings OU2) as OP. split.
      * destruct OU2 as [(_ & C & _)|[(Z & _)|[(Z & _)|(k & Z & _)]]]; try discriminate. exact C.
      * rewrite pendings_app, wpendings_app. lia.
    + right. split; [discriminate|]. eapply outcome_trans; eassumption.
  - exists v1, o1, r1, w1. split; [destruct o1; [congruence|reflexivity]|]. auto.
Qed.
End Loop.

(** ** C101 *)

(** The service at the beginning, on a connection that carries [data] and answers according to the plans. *)
Definition open {I J} (ci : codec I) (co : codec J) (rinner winner data : list byte) (rplan : list (option RdPlan)) (wplan : list (option WrPlan)) :=
  mkService (mkABufferedIo (mkAReader data rplan) (mkAWriter [] wplan) (rb_new rinner) (wb_new winner))
    (maybe_new (dec_fresh ci)) (enc_fresh co) (@nil J) (@nil I).

Lemma open_ok : forall I J (ci : codec I) (co : codec J) (reply : I -> J) prompt msgs items rws t u a (rinner winner : list byte),
  wf ci -> reports prompt ci -> delim ci = SD -> dec_again ci = true -> busy ci = true -> wf co -> enc_again co = true ->
  Forall2 (fun w i => reads ci w i /\ w <> []) msgs items -> reads ci (t ++ u) a -> u <> [] ->
  Forall2 (wire co) rws (map reply items) ->
  rinner <> [] -> winner <> [] -> (N.of_nat (length rinner) <= isize_max)%N ->
  exists f0 (P : _ -> Prop) (Pe : _ -> Prop), length rinner <= f0 /\ length winner <= f0 /\ rests (encoder co) Pe /\
    (forall s w i, P s -> reads ci w i -> cuts (decoder ci) SD prompt P s w i) /\ (forall s, P s -> dec_idle (decoder ci) s = false) /\
    forall fuel rplan wplan, f0 < fuel -> ~ In (Some RdZero) rplan -> ~ In (Some (RdErr IoWouldBlock)) rplan ->
    ~ In (Some (WrErr IoWouldBlock)) wplan ->
    serves (decoder ci) (encoder co) reply prompt P (reads ci) Pe fuel (length rinner) (length winner) t u a msgs rws items
      (length (concat msgs ++ t) + 2 * length (concat rws) + 2 * length items)
      (open ci co rinner winner (concat msgs ++ t) rplan wplan).
Proof.
  intros I J ci co reply g msgs items rws t u a rinner winner WF RP DL AG BU WFo EA HW R NU HWo NR NW IM.
  destruct (proj1 term_cuts I ci WF g RP) as (_ & P & Q & H & H0 & HA & HB). rewrite DL in H.
  specialize (HA AG). specialize (HB BU).
  assert (H' : forall s w i, P s -> reads ci w i -> cuts (decoder ci) SD g P s w i).
  { intros s w i X Y. eapply cuts_post; [exact HA|]. apply H; auto. }
  pose proof (proj1 term_enc_ok J co WFo) as EO. unfold code_enc_ok in EO. rewrite EA in EO.
  destruct (enc_ok_again EO) as (Pe & HE & E0 & RS).
  assert (K : exists f0, forall fuel, f0 < fuel ->
            Forall2 (sends_as (encoder co) Pe fuel (length winner)) rws (map reply items)).
  { clear - HWo HE. induction HWo as [|w b ws js W HW (f0 & IH)].
    - exists 0. intros. constructor.
    - destruct (HE w b W) as (f1 & AC). exists (f0 + f1 + length winner). intros fuel LF.
      constructor; [|apply IH; lia]. exists f1. split; [lia|exact AC]. }
  destruct K as (f0 & K). exists (f0 + length rinner + length winner), P, Pe. split; [lia|]. split; [lia|]. split; [exact RS|].
  split; [exact H'|]. split; [exact HB|]. intros fuel rplan wplan LF NZ RR WRR. destruct (RS _ E0) as (ID & _).
  exists [], msgs, items, [], rws, [], []. cbn [open v_io v_dec v_enc v_todo v_got ab_rd ab_wr ab_rbuf ab_wbuf ar_data].
  do 5 (split; [reflexivity|]).
  split.
  { split; [split; [cbn; lia|right; auto]|]. split; [reflexivity|]. split; [discriminate|]. split; [exact RR|]. split; [exact NZ|].
    apply (@waits_new _ _ _ _ _ _ H' HB); auto. }
  split; [discriminate|]. split.
  { split; [constructor|]. split; [unfold sender_ok; rewrite ID; auto|].
    split; [unfold wb_ok, indices_ok; cbn; lia|]. split; [reflexivity|]. split; [discriminate|]. split; [exact WRR|reflexivity]. }
  split; [discriminate|]. split; [apply K; lia|].
  rewrite ID. change (wb_content (wb_new winner)) with (@nil byte). change (rb_content (rb_new rinner)) with (@nil byte). cbn [app length concat]. lia.
Qed.

(** The connection carries the requests [msgs] and then [t], the beginning of one more (empty if the peer closes the connection between
    two requests); it answers the service's [poll_read] and [poll_write] in any way.  After any number of polls:
    - the requests received are the first ones of those sent, and the bytes out are the beginning of the encodings of the replies to
      them, in order;
    - if the task is pending, every request that has arrived in full has been received.  Since the poll before, its last [poll_read]
      was pending - or the peer has closed the connection -, and its last [poll_write] was pending - or all replies are out:
      whatever there is to wait for will wake it;
    - it ends with success only when all is done, and with an error only if the connection was cut, closed or failed. *)
Theorem C101_service : forall I J (ci : codec I) (co : codec J) (reply : I -> J) prompt msgs items rws t u a (rinner winner : list byte),
  wf ci -> reports prompt ci -> delim ci = SD -> dec_again ci = true -> busy ci = true -> wf co -> enc_again co = true ->
  Forall2 (fun w i => reads ci w i /\ w <> []) msgs items -> reads ci (t ++ u) a -> u <> [] ->
  Forall2 (wire co) rws (map reply items) ->
  rinner <> [] -> winner <> [] -> (N.of_nat (length rinner) <= isize_max)%N ->
  exists f0, forall fuel turns polls rplan wplan, f0 < fuel ->
  length (concat msgs ++ t) + 2 * length (concat rws) + 2 * length items < turns ->
  ~ In (Some RdZero) rplan -> ~ In (Some (RdErr IoWouldBlock)) rplan -> ~ In (Some (WrErr IoWouldBlock)) wplan ->
  let run n := serve_task (maybe_decoder (decoder ci)) (encoder co) reply fuel turns n
                 (open ci co rinner winner (concat msgs ++ t) rplan wplan) in
  exists v o, run polls = (v, o) /\
    (exists more, items = v_got v ++ more) /\
    (exists rest, concat (firstn (length (v_got v)) rws) = aw_data (ab_wr (v_io v)) ++ rest) /\
    ((o = Pending /\
      (exists arrived, concat msgs ++ t = arrived ++ ar_data (ab_rd (v_io v)) /\
         forall n, n <= length msgs -> length (concat (firstn n msgs)) <= length arrived -> n <= length (v_got v)) /\
      (forall n, polls = S n -> exists v0, run n = (v0, Pending) /\
         (ar_data (ab_rd (v_io v)) = [] /\ rb_state (ab_rbuf (v_io v)) = StEos \/
          exists before, ar_plan (ab_rd (v_io v0)) = before ++ [None] ++ ar_plan (ab_rd (v_io v))) /\
         (aw_data (ab_wr (v_io v)) = concat (firstn (length (v_got v)) rws) \/
          exists before, aw_plan (ab_wr (v_io v0)) = before ++ [None] ++ aw_plan (ab_wr (v_io v)))) /\
      polls + pendings (ar_plan (ab_rd (v_io v))) + wpendings (aw_plan (ab_wr (v_io v))) <= pendings rplan + wpendings wplan) \/
     (o = Ready (Ok tt) /\ v_got v = items /\ t = [] /\ aw_data (ab_wr (v_io v)) = concat rws) \/
     (o = Ready (Err UnexpectedEos) /\ (v_got v = items /\ t <> [] \/ In (Some WrZero) wplan)) \/
     (exists k, o = Ready (Err k) /\ (poll_failed rplan k \/ exists e, In (Some (WrErr e)) wplan /\ k = reported_kind e))).
Proof.
  intros I J ci co reply g msgs items rws t u a rinner winner WF RP DL AG BU WFo EA HW R NU HWo NR NW IM.
  destruct (@open_ok I J ci co reply g msgs items rws t u a rinner winner) as (f0 & P & Pe & L1 & L2 & RS & H' & HB & K); auto.
  exists f0. intros fuel turns polls rplan wplan LF LT NZ RR WRR run.
  specialize (K fuel rplan wplan LF NZ RR WRR).
  assert (I1 : 0 < length rinner) by (destruct rinner; [congruence|cbn; lia]).
  assert (I2 : 0 < length winner) by (destruct winner; [congruence|cbn; lia]).
  assert (F1 : length rinner < fuel) by lia. assert (F2 : length winner < fuel) by lia.
  pose proof (@serve_task_ok _ _ _ _ (decoder ci) (encoder co) reply g P (reads ci) Pe fuel (length rinner) (length winner)
                H' HB RS F1 I1 IM F2 I2 t u a msgs rws items NU R turns _ _ K eq_refl LT) as ST.
  fold run in ST.
  destruct (ST polls) as (v & o & ru & wu & X & AN & ON & Y).
  exists v, o. split; [exact X|].
  destruct AN as (more & gw & wp & rest & A1 & A2 & A3 & A4).
  assert (FG : forall gw' wp', rws = gw' ++ wp' -> length gw' = length (v_got v) -> firstn (length (v_got v)) rws = gw').
  { intros gw' wp' -> <-. rewrite firstn_app, Nat.sub_diag, firstn_all. cbn. apply app_nil_r. }
  split; [exists more; exact A1|]. split; [exists rest; rewrite (FG _ _ A2 A3); exact A4|].
  destruct ON as (O1 & O2 & tk & O3). cbn [open v_io ab_rd ab_wr ab_rbuf ar_plan aw_plan ar_data] in O1, O2, O3.
  destruct Y as [(-> & (n' & HV & LN) & C0 & NP)|(NO & OU)].
  - left. split; [reflexivity|]. split; [|split].
    + destruct HV as (dn & ws & pend & gw2 & wp2 & erest & wt & Q1 & Q2 & _ & _ & _ & (_ & _ & _ & _ & _ & W) & _).
      rewrite C0 in W, O3. change (rb_content (rb_new rinner)) with (@nil byte) in O3. cbn [app] in W, O3. destruct W as [_ W].
      exists tk. split; [exact O3|]. intros n LNn LE.
      destruct (Nat.le_gt_cases n (length (v_got v))) as [|GT]; [assumption|exfalso]. subst msgs.
      rewrite firstn_app in LE. rewrite firstn_all2 in LE by lia.
      destruct ws as [|w1 ws]; [rewrite app_nil_r in LNn; lia|].
      destruct pend as [|i is]; [contradiction|]. destruct W as (dr & _ & ND & _ & QR).
      assert (LA : length (concat ws ++ t) < length (ar_data (ab_rd (v_io v)))).
      { rewrite QR, (app_length dr). destruct dr; [congruence|cbn; lia]. }
      destruct (n - length dn) as [|m] eqn:EM; [lia|]. cbn [firstn] in LE.
      apply (f_equal (@length _)) in O3. rewrite !concat_app, !app_length in *. cbn [concat] in *. rewrite !app_length in *.
      lia.
    + intros n ->. destruct (ST n) as (v0 & o0 & r0 & w0 & X0 & _ & ON0 & Y0). exists v0.
      pose proof X as X'. unfold run in X', X0. rewrite serve_task_snoc in X'. rewrite X0 in X'. fold (run n) in X0.
      destruct o0 as [|x]; [|discriminate X'].
      destruct Y0 as [(_ & (n0 & HV0 & LN0) & _)|(Z & _)]; [|congruence].
      split; [exact X0|].
      destruct (@serve_poll_ok _ _ _ _ (decoder ci) (encoder co) reply g P (reads ci) Pe fuel (length rinner) (length winner)
                H' HB RS F1 I1 IM F2 I2 t u a msgs rws items NU R turns _ _ HV0) as (v2 & o2 & r2 & w2 & X2 & _ & (B1 & B2 & _) & OU2 & _); [lia|].
      rewrite X2 in X'. injection X' as -> ->.
      destruct OU2 as [(_ & _ & Y1 & Y2 & _)|[(Z & _)|[(Z & _)|(k & Z & _)]]]; try discriminate.
      split.
      * destruct Y1 as [(E1 & E2)|(u' & ->)]; [left|right].
        -- apply app_eq_nil in E1 as [_ E1]. auto.
        -- exists u'. rewrite B1, <- app_assoc. reflexivity.
      * destruct Y2 as [(gw2 & wp2 & E1 & E2 & E3)|(u' & ->)]; [left|right].
        -- rewrite (FG _ _ E1 E2). exact E3.
        -- exists u'. rewrite B2, <- app_assoc. reflexivity.
    + rewrite O1, O2, pendings_app, wpendings_app. lia.
  - right. destruct OU as [(Z & _)|OU]; [congruence|]. exact OU.
Qed.
Print Assumptions C101_service.

(** So on a connection that does not fail, a service that is polled once more than the connection answers "pending" has answered every
    request, or has noticed that the connection was cut. *)
Corollary C101_serves : forall I J (ci : codec I) (co : codec J) (reply : I -> J) prompt msgs items rws t u a (rinner winner : list byte),
  wf ci -> reports prompt ci -> delim ci = SD -> dec_again ci = true -> busy ci = true -> wf co -> enc_again co = true ->
  Forall2 (fun w i => reads ci w i /\ w <> []) msgs items -> reads ci (t ++ u) a -> u <> [] ->
  Forall2 (wire co) rws (map reply items) ->
  rinner <> [] -> winner <> [] -> (N.of_nat (length rinner) <= isize_max)%N ->
  exists f0, forall fuel turns polls rplan wplan, f0 < fuel ->
  length (concat msgs ++ t) + 2 * length (concat rws) + 2 * length items < turns ->
  ~ In (Some RdZero) rplan -> (forall e, ~ In (Some (RdErr e)) rplan) -> ~ In (Some WrZero) wplan -> (forall e, ~ In (Some (WrErr e)) wplan) ->
  pendings rplan + wpendings wplan < polls ->
  exists v, serve_task (maybe_decoder (decoder ci)) (encoder co) reply fuel turns polls (open ci co rinner winner (concat msgs ++ t) rplan wplan)
    = (v, Ready (match t with [] => Ok tt | _ => Err UnexpectedEos end)) /\
    v_got v = items /\ (t = [] -> aw_data (ab_wr (v_io v)) = concat rws).
Proof.
  intros I J ci co reply g msgs items rws t u a rinner winner WF RP DL AG BU WFo EA HW R NU HWo NR NW IM.
  destruct (@C101_service I J ci co reply g msgs items rws t u a rinner winner) as (f0 & K); auto.
  exists f0. intros fuel turns polls rplan wplan LF LT NZ NE WNZ WNE LP.
  destruct (K fuel turns polls rplan wplan LF LT NZ (NE _) (WNE _)) as (v & o & X & _ & _ & Y). exists v. rewrite X.
  destruct Y as [(_ & _ & _ & L)|[(-> & G & -> & O)|[(-> & [(G & NT)|Z])|(k & _ & [(e & Z & _)|(e & Z & _)])]]];
    [lia|auto| |elim (WNZ Z)|elim (NE _ Z)|elim (WNE _ Z)].
  destruct t; [congruence|]. split; [reflexivity|]. split; [exact G|discriminate].
Qed.
Print Assumptions C101_serves.

(** Two requests; buffers of 3 and 2 bytes. *)
Definition ex_reply (i : N * Z * list (N * list byte)) : N * list byte := match snd i with [] => (8%N, []) | _ => ex_tlv_item end.
Definition ex_rplan : list (option RdPlan) := [None; Some (RdSome 0); None; Some (RdSome 9); Some (RdSome 9); Some (RdSome 9); Some (RdSome 9); None].
Definition ex_wplan : list (option WrPlan) := [Some (WrSome 0); None; Some (WrSome 1); None; None].
Example C101_example : wf ex_fix /\ reports true ex_fix /\ delim ex_fix = SD /\ dec_again ex_fix = true /\ busy ex_fix = true /\
  wf ex_tlv /\ enc_again ex_tlv = true /\ reads ex_fix ex_m1 ex_i1 /\ reads ex_fix ex_m2 ex_i2 /\
  Forall2 (wire ex_tlv) [ex_tlv_bytes; [x08; x00; x00]] (map ex_reply [ex_i1; ex_i2]) /\
  pendings ex_rplan + wpendings ex_wplan < 7 /\
  (exists v, serve_task (maybe_decoder (decoder ex_fix)) (encoder ex_tlv) ex_reply 99 99 3
      (open ex_fix ex_tlv [x00; x00; x00] [x00; x00] (ex_m1 ++ ex_m2) ex_rplan ex_wplan) = (v, Pending) /\
    v_got v = [ex_i1; ex_i2] /\ aw_data (ab_wr (v_io v)) = firstn 2 ex_tlv_bytes) /\
  (exists v, serve_task (maybe_decoder (decoder ex_fix)) (encoder ex_tlv) ex_reply 99 99 7
      (open ex_fix ex_tlv [x00; x00; x00] [x00; x00] (ex_m1 ++ ex_m2) ex_rplan ex_wplan) = (v, Ready (Ok tt)) /\
    v_got v = [ex_i1; ex_i2] /\ aw_data (ab_wr (v_io v)) = ex_tlv_bytes ++ [x08; x00; x00]).
Proof.
  pose proof C94_example as (W & RP & X1 & X2 & X3 & R1 & R2 & _).
  split; [exact W|]. split; [exact RP|]. split; [exact X1|]. split; [exact X2|]. split; [exact X3|].
  split; [apply ex_tlv_wf|]. split; [reflexivity|]. split; [exact R1|]. split; [exact R2|].
  split; [constructor; [apply ex_tlv_wire1|constructor; [apply ex_tlv_wire2|constructor]]|]. split; [cbn; lia|].
  split; eexists; (split; [vm_compute; reflexivity|]); vm_compute; auto.
Qed.

(** [execute_io_poll] is pending only if both buffers wait.  A task that sleeps only then does not sleep while it has nothing to
    write: as long as the peer is silent, it asks the connection again and again and does not give its turn back. *)
Theorem C101_spin_refuted : forall silent, exists v,
  naive_poll (maybe_decoder (decoder (CU NU16be))) (encoder (CU NU16be)) (fun i => i) 99 silent
    (open (CU NU16be) (CU NU16be) [x00; x00] [x00; x00] [x01; x02] (repeat None silent) []) = (v, Ready OutOfFuel) /\
  ar_plan (ab_rd (v_io v)) = [].
Proof.
  intro silent.
  set (D := maybe_decoder (decoder (CU NU16be))). set (E := encoder (CU NU16be)).
  set (now := fun (s : StreamState) (p : list (option RdPlan)) =>
    mkService (mkABufferedIo (mkAReader [x01; x02] p) (mkAWriter [] []) (mkReadBuf [x00; x00] 0 0 s) (wb_new [x00; x00]))
      (maybe_new (dec_fresh (CU NU16be))) (enc_fresh (CU NU16be)) (@nil N) (@nil N)).
  assert (T : forall s p, s = StNormal \/ s = StWouldBlock ->
    fst (ab_execute_poll (v_io (now s (None :: p)))) = v_io (now StWouldBlock p) /\
    snd (ab_execute_poll (v_io (now s (None :: p)))) = Ready (Ok tt) /\
    serve_turn D E (fun i => i) 99 (now s (None :: p)) = (now StWouldBlock p, Some Pending)).
  { intros s p [->| ->]; repeat split; vm_compute; reflexivity. }
  assert (G : forall n s, s = StNormal \/ s = StWouldBlock ->
    exists v, naive_poll D E (fun i => i) 99 n (now s (repeat None n)) = (v, Ready OutOfFuel) /\ ar_plan (ab_rd (v_io v)) = []).
  { induction n as [|n IH]; intros s HS.
    - exists (now s []). split; reflexivity.
    - change (repeat None (S n)) with (@None RdPlan :: repeat None n). destruct (T s (repeat None n) HS) as (T1 & T2 & T3).
      cbn [naive_poll]. destruct (ab_execute_poll (v_io (now s (None :: repeat None n)))) as [io x]. cbn [fst snd] in T1, T2. subst x.
      rewrite T3. apply IH. auto. }
  apply (G silent StNormal). auto.
Qed.
Print Assumptions C101_spin_refuted.
