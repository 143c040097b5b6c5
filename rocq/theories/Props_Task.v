(** * C98: a task that receives messages from an asynchronous connection. *)
From Coq Require Import Lia ZifyBool ZifyNat ZifyN.
From Verif Require Import Task TruncProofs IoProofs LinkProofs DuplexProofs Examples Props_Trunc Props_Io Props_Receive.
Set Implicit Arguments.

Lemma poll_read_plan : forall r k r' o, poll_read r k = (r', o) ->
  (o = Pending /\ ar_plan r = None :: ar_plan r') \/
  (exists x, ar_plan r = Some x :: ar_plan r') \/ (ar_plan r = [] /\ ar_plan r' = []).
Proof.
  intros [d [|[x|] p]] k r' o H; unfold poll_read in H; cbn [ar_plan ar_data] in H.
  - destruct (rd_read (mkReader d []) k) as [r1 o1]. injection H as <- <-. auto.
  - destruct (rd_read (mkReader d [x]) k) as [r1 o1]. injection H as <- <-. cbn. eauto.
  - injection H as <- <-. auto.
Qed.

(** [poll_fill] uses up the beginning of the plan, and is pending only if the last answer was. *)
Lemma poll_fill_used : forall fuel b r b' r' p, rb_poll_fill_loop fuel b r = (b', r', p) ->
  exists used, ar_plan r = used ++ ar_plan r' /\ (p = Pending -> exists u', used = u' ++ [None]).
Proof.
  induction fuel as [|fuel IH]; intros b r b' r' p H; cbn [rb_poll_fill_loop] in H; destruct (rb_is_full b);
    try (injection H as <- <- <-; exists []; split; [reflexivity|discriminate]).
  destruct (usize_sub (length (rb_inner b)) (rb_tail b)) as [room|];
    [|injection H as <- <- <-; exists []; split; [reflexivity|discriminate]].
  destruct (poll_read r room) as [r1 o] eqn:PR.
  assert (U : exists u1, ar_plan r = u1 ++ ar_plan r1 /\ (o = Pending -> u1 = [None])).
  { destruct (poll_read_plan _ _ PR) as [(-> & Q)|[(x & Q)|(Q & Q1)]].
    - exists [None]. auto.
    - exists [Some x]. split; [exact Q|]. unfold poll_read in PR. rewrite Q in PR.
      destruct (rd_read _ room) as [r2 o2]. injection PR as _ <-. discriminate.
    - exists []. rewrite Q, Q1. split; [reflexivity|]. unfold poll_read in PR. rewrite Q in PR.
      destruct (rd_read _ room) as [r2 o2]. injection PR as _ <-. discriminate. }
  destruct U as (u1 & Q & UP).
  destruct o as [|[[|y l]|e]].
  - injection H as <- <- <-. exists u1. split; [exact Q|]. intros _. exists []. auto.
  - injection H as <- <- <-. exists u1. split; [exact Q|discriminate].
  - destruct (IH _ _ _ _ _ H) as (u2 & Q2 & UP2). exists (u1 ++ u2). rewrite Q, Q2, app_assoc. split; [reflexivity|].
    intro Z. destruct (UP2 Z) as (u' & ->). exists (u1 ++ u'). now rewrite app_assoc.
  - injection H as <- <- <-. exists u1. split; [exact Q|discriminate].
Qed.

Lemma pendings_app : forall a b, pendings (a ++ b) = pendings a + pendings b.
Proof. intros a b. unfold pendings. rewrite filter_app, app_length. reflexivity. Qed.

Section Loop.
Context {T I : Type} (D : Decoder T I) (g : bool) (P : T -> Prop) (F : format I) (fuel cap : nat).
Hypotheses (HD : forall s w i, P s -> F w i -> cuts D SD g P s w i)
           (HB : forall s, P s -> dec_idle D s = false)
           (FU : cap < fuel) (CAP : 0 < cap) (CM : (N.of_nat cap <= isize_max)%N).
Variables (t u : list byte) (a : I).
Hypotheses (NU : u <> []) (CUT : F (t ++ u) a).

Lemma poll_once : forall rb r rb' r' p, rb_ok rb -> rb_capacity rb = cap ->
  rb_poll_fill rb r = (rb', r', p) -> ready_means_ready r -> ~ In (Some RdZero) (ar_plan r) ->
  (rb_state rb = StEos -> ar_data r = []) ->
  rb_ok rb' /\ rb_capacity rb' = cap /\ rb_content rb ++ ar_data r = rb_content rb' ++ ar_data r' /\
  (rb_state rb' = StEos -> ar_data r' = []) /\
  (sync_result p = Ok tt \/ exists e, e <> IoWouldBlock /\ In (Some (RdErr e)) (ar_plan r) /\
     p = Ready (Err (reported_kind e))) /\
  (exists used, ar_plan r = used ++ ar_plan r' /\ (p = Pending -> exists u', used = u' ++ [None])) /\
  (p = Ready (Ok tt) -> rb_content rb' = [] -> rb_state rb' = StEos).
Proof.
  intros rb r rb' r' p OK CC H RR NZ EO. destruct (C45_poll_fill _ RR H) as (FI & _ & _).
  destruct (poll_fill_used _ _ _ H) as (used & Q & UP).
  assert (PM : forall x, x <> RdErr IoWouldBlock ->
     In x (rd_plan (sync_reader r)) -> In (Some x) (ar_plan r)).
  { intros x NX IN. cbn in IN. apply in_map_iff in IN as ([y|] & Z & IN); congruence. }
  destruct (@fill_once _ _ D g P F fuel cap HD FU CAP CM a rb (ar_data r) (rd_plan (sync_reader r)) rb' (sync_reader r') (sync_result p) OK CC)
    as (OK1 & C1 & Q1 & EO1 & RES & WI); auto.
  { intro Z. apply NZ, PM; [discriminate|exact Z]. }
  split; [exact OK1|]. split; [exact C1|]. split; [exact Q1|]. split; [exact EO1|]. split.
  { destruct RES as [Z|(e & NW & IN & Z)]; [auto|]. right. exists e. split; [exact NW|].
    split; [apply PM; congruence|]. destruct p as [|x]; [discriminate|]. cbn in Z. congruence. }
  split; [exists used; auto|]. intros -> CE. apply WI; auto.
  assert (NF : rb_is_full rb = false).
  { rewrite CE in Q1. destruct (fill_spec _ OK FI) as (data & r1 & _ & _ & _ & N' & _).
    rewrite CE in N'. symmetry in N'. apply app_eq_nil in N' as [C0 _].
    assert (T0 : rb_tail rb = 0) by (apply Nat.eqb_eq, (content_empty OK); exact C0).
    unfold rb_is_full. rewrite T0. unfold rb_capacity in CC. destruct (length (rb_inner rb)); [lia|reflexivity]. }
  unfold rb_poll_fill in H. cbn [rb_poll_fill_loop] in H. rewrite NF in H.
  destruct OK as [L _]. rewrite usize_sub_ok in H by exact L.
  destruct r as [d [|[[n| |e]|] pl]]; cbn [sync_reader rd_plan ar_plan map]; auto;
    unfold poll_read in H; cbn in H; discriminate.
Qed.

(** The state of the task between two turns: [got] are received, [pend] are not. *)
Definition holds (rb : ReadBuf) (st : MaybeEos T) (r : AReader) (pend : list I) (ws : list (list byte)) : Prop :=
  rb_ok rb /\ rb_capacity rb = cap /\ (rb_state rb = StEos -> ar_data r = []) /\
  ready_means_ready r /\ ~ In (Some RdZero) (ar_plan r) /\
  waits D g P F t u a st pend ws (rb_content rb ++ ar_data r).

Lemma recv_poll_ok : forall turns rb st r got pend ws, holds rb st r pend ws ->
  length (rb_content rb ++ ar_data r) < turns ->
  exists rb' st' r' got' rest done todo o,
    recv_poll (maybe_decoder D) fuel turns rb st r got = (rb', st', r', got', o) /\
    got ++ pend = got' ++ rest /\ ws = done ++ todo /\ length got' = length got + length done /\
    (exists used, ar_plan r = used ++ ar_plan r' /\ (o = Pending -> exists u', used = u' ++ [None])) /\
    (exists taken, rb_content rb ++ ar_data r = taken ++ rb_content rb' ++ ar_data r') /\
    ((o = Pending /\ rb_content rb' = [] /\ holds rb' st' r' rest todo) \/
     (o = Ready (Ok tt) /\ rest = [] /\ t = []) \/
     (o = Ready (Err UnexpectedEos) /\ rest = [] /\ t <> []) \/
     (exists k, o = Ready (Err k) /\ poll_failed (ar_plan r) k)).
Proof.
  induction turns as [|turns IH]; intros rb st r got pend ws (OK & CC & EO & RR & NZ & W) LT; [lia|].
  cbn [recv_poll]. destruct (rb_poll_fill rb r) as [[rb1 r1] p] eqn:FI.
  destruct (@poll_once _ _ _ _ _ OK CC FI RR NZ EO)
    as (OK1 & C1 & Q1 & EO1 & RES & (used & QU & UP) & WI).
  assert (RR1 : ready_means_ready r1).
  { intro Z. apply RR. rewrite QU. apply in_or_app. auto. }
  assert (NZ1 : ~ In (Some RdZero) (ar_plan r1)).
  { intro Z. apply NZ. rewrite QU. apply in_or_app. auto. }
  destruct RES as [RES|(e & NW & IN & ->)].
  2:{ cbn [sync_result]. exists rb1, st, r1, got, pend, [], ws, (Ready (Err (reported_kind e))).
      split; [reflexivity|]. split; [reflexivity|]. split; [reflexivity|]. split; [cbn; lia|].
      split; [exists used; split; [exact QU|discriminate]|]. split; [exists []; rewrite Q1; reflexivity|].
      right. right. right. exists (reported_kind e). split; [reflexivity|]. exists e. auto. }
  rewrite RES. rewrite Q1 in W, LT |- *.
  unfold decode_from_read_buf. rewrite (window_some OK1). fold (rb_content rb1).
  destruct (@decode_once _ _ D g P F fuel cap HD HB FU CAP CM t u a NU CUT st pend ws (rb_content rb1) (ar_data r1)
              (eos_new (st_is_eos (rb_state rb1))) W) as (st' & x & Y & Cases).
  { destruct (rb_state rb1) eqn:SE; [left|right|left|left]; cbn; auto. }
  { unfold rb_content. rewrite stretch_length by apply OK1. pose proof OK1 as [L _]. unfold rb_capacity in C1. lia. }
  rewrite Y. destruct Cases as [(k & -> & LK & PK & Cases)|(-> & -> & NT)].
  2:{ cbn [rcast]. exists rb1, st', r1, got, [], [], ws, (Ready (Err UnexpectedEos)).
      split; [reflexivity|]. split; [reflexivity|]. split; [reflexivity|]. split; [cbn; lia|].
      split; [exists used; split; [exact QU|discriminate]|]. split; [exists []; reflexivity|]. auto 10. }
  destruct (consume_ok OK1 LK) as (OK2 & C2 & CC2 & S2).
  assert (LQ : length (rb_content (rb_consume rb1 k) ++ ar_data r1) + k = length (rb_content rb1 ++ ar_data r1)).
  { rewrite C2, !app_length, skipn_length. lia. }
  assert (TK : rb_content rb1 ++ ar_data r1 = firstn k (rb_content rb1) ++ rb_content (rb_consume rb1 k) ++ ar_data r1).
  { rewrite C2, app_assoc, firstn_skipn. reflexivity. }
  cbn [dec_idle maybe_decoder].
  destruct Cases as [(ID & KL & WW & NOP)|(ID & NB & i & is & w & ws' & s2 & -> & -> & FN & WW)]; rewrite ID.
  - destruct (rb_is_empty rb1 && st_is_eos (rb_state rb1)) eqn:OV.
    + apply andb_true_iff in OV as [E1 E2]. apply (content_empty OK1) in E1.
      destruct (NOP E1) as [-> ->]; [rewrite E2; reflexivity|].
      eexists _, _, _, got, [], [], ws, (Ready (Ok tt)). split; [reflexivity|].
      split; [reflexivity|]. split; [reflexivity|]. split; [cbn; lia|].
      split; [exists used; split; [exact QU|discriminate]|]. split; [exists (firstn k (rb_content rb1)); exact TK|]. auto 10.
    + assert (HH : holds (rb_consume rb1 k) st' r1 pend ws).
      { split; [exact OK2|]. split; [congruence|]. split; [rewrite S2; exact EO1|]. split; [exact RR1|].
        split; [exact NZ1|]. rewrite C2. exact WW. }
      destruct p as [|y].
      * exists (rb_consume rb1 k), st', r1, got, pend, [], ws, Pending. split; [reflexivity|].
        split; [reflexivity|]. split; [reflexivity|]. split; [cbn; lia|].
        split; [exists used; split; [exact QU|exact UP]|]. split; [exists (firstn k (rb_content rb1)); exact TK|]. left. split; [reflexivity|].
        split; [rewrite C2, KL; apply skipn_all|exact HH].
      * cbn [sync_result] in RES. subst y.
        assert (NE : rb_content rb1 <> []).
        { intro CE. specialize (WI eq_refl CE). apply (content_empty OK1) in CE.
          fold (rb_is_empty rb1) in CE. rewrite CE, WI in OV. discriminate. }
        specialize (PK NE).
        destruct (IH _ _ _ got pend ws HH) as (rb' & s' & r' & got' & rest & dn & todo & o & X1 & X2 & X3 & X4 & (us & QU2 & UP2) & (tk & X6) & X7);
          [lia|].
        exists rb', s', r', got', rest, dn, todo, o. split; [exact X1|]. split; [exact X2|]. split; [exact X3|].
        split; [exact X4|]. split; [|split; [exists (firstn k (rb_content rb1) ++ tk); rewrite TK, X6, app_assoc; reflexivity|]].
        -- exists (used ++ us). rewrite QU, QU2, app_assoc. split; [reflexivity|].
           intro Z. destruct (UP2 Z) as (u' & ->). exists (used ++ u'). now rewrite app_assoc.
        -- destruct X7 as [X7|[X7|[X7|(kk & X7 & e & X8 & X9)]]]; auto. right; right; right. exists kk. split; [exact X7|].
           exists e. rewrite QU. split; [apply in_or_app; auto|exact X9].
  - rewrite FN. assert (HH : holds (rb_consume rb1 k) s2 r1 is ws').
    { split; [exact OK2|]. split; [congruence|]. split; [rewrite S2; exact EO1|]. split; [exact RR1|].
      split; [exact NZ1|]. rewrite C2. exact WW. }
    specialize (PK NB).
    destruct (IH _ _ _ (got ++ [i]) is ws' HH) as (rb' & s' & r' & got' & rest & dn & todo & o & X1 & X2 & X3 & X4 & (us & QU2 & UP2) & (tk & X6) & X7);
      [lia|].
    exists rb', s', r', got', rest, (w :: dn), todo, o. split; [exact X1|]. rewrite <- app_assoc in X2. split; [exact X2|].
    split; [cbn; congruence|]. split; [rewrite app_length in X4; cbn in X4 |- *; lia|]. split; [|split; [exists (firstn k (rb_content rb1) ++ tk); rewrite TK, X6, app_assoc; reflexivity|]].
    + exists (used ++ us). rewrite QU, QU2, app_assoc. split; [reflexivity|].
      intro Z. destruct (UP2 Z) as (u' & ->). exists (used ++ u'). now rewrite app_assoc.
    + destruct X7 as [X7|[X7|[X7|(kk & X7 & e & X8 & X9)]]]; auto. right; right; right. exists kk. split; [exact X7|].
      exists e. rewrite QU. split; [apply in_or_app; auto|exact X9].
Qed.

Lemma recv_task_ok : forall turns polls rb st r got pend ws, holds rb st r pend ws ->
  length (rb_content rb ++ ar_data r) < turns ->
  exists rb' st' r' got' rest done todo o,
    recv_task (maybe_decoder D) fuel turns polls rb st r got = (rb', st', r', got', o) /\
    got ++ pend = got' ++ rest /\ ws = done ++ todo /\ length got' = length got + length done /\
    (exists used, ar_plan r = used ++ ar_plan r' /\ (o = Pending -> 0 < polls -> exists u', used = u' ++ [None]) /\
       (o = Pending -> polls <= pendings used)) /\
    (exists taken, rb_content rb ++ ar_data r = taken ++ rb_content rb' ++ ar_data r') /\
    ((o = Pending /\ (0 < polls -> rb_content rb' = []) /\ holds rb' st' r' rest todo) \/
     (o = Ready (Ok tt) /\ rest = [] /\ t = []) \/
     (o = Ready (Err UnexpectedEos) /\ rest = [] /\ t <> []) \/
     (exists k, o = Ready (Err k) /\ poll_failed (ar_plan r) k)).
Proof.
  intros turns polls. induction polls as [|polls IH]; intros rb st r got pend ws HH LT.
  { exists rb, st, r, got, pend, [], ws, Pending. split; [reflexivity|]. split; [reflexivity|]. split; [reflexivity|].
    split; [cbn; lia|]. split; [exists []; split; [reflexivity|split; [lia|cbn; lia]]|]. split; [exists []; reflexivity|]. left. split; [reflexivity|].
    split; [lia|exact HH]. }
  cbn [recv_task].
  destruct (@recv_poll_ok turns rb st r got pend ws HH LT)
    as (rb1 & st1 & r1 & got1 & rest1 & d1 & todo1 & o1 & X1 & X2 & X3 & X4 & (u1 & QU & UP) & (tk1 & X6) & X7).
  rewrite X1. destruct o1 as [|x].
  - destruct X7 as [(_ & CE & H1)|[(Z & _)|[(Z & _)|(k & Z & _)]]]; try discriminate.
    destruct (IH rb1 st1 r1 got1 rest1 todo1 H1) as (rb' & st' & r' & got' & rest & d2 & todo & o & Y1 & Y2 & Y3 & Y4 & (u2 & QU2 & UP2 & NP2) & (tk2 & Y6) & Y7);
      [rewrite X6, app_length in LT; lia|].
    exists rb', st', r', got', rest, (d1 ++ d2), todo, o. split; [exact Y1|]. split; [congruence|].
    split; [rewrite X3, Y3, app_assoc; reflexivity|]. split; [rewrite app_length; lia|].
    destruct (UP eq_refl) as (u' & UE). split; [|split; [exists (tk1 ++ tk2); rewrite X6, Y6, app_assoc; reflexivity|]].
    + exists (u1 ++ u2). split; [rewrite QU, QU2, app_assoc; reflexivity|]. split.
      * intros Z _. destruct polls as [|polls].
        -- cbn [recv_task] in Y1. injection Y1 as <- <- <- <- <-. exists u'.
           assert (E0 : u2 = []) by (apply (f_equal (@length _)) in QU2; rewrite app_length in QU2; destruct u2; [reflexivity|cbn in QU2; lia]).
           rewrite E0, app_nil_r. exact UE.
        -- destruct (UP2 Z) as (u'' & ->); [lia|]. exists (u1 ++ u''). now rewrite app_assoc.
      * intro Z. specialize (NP2 Z). rewrite pendings_app, UE, pendings_app. cbn. lia.
    + destruct Y7 as [(Z & CC & H2)|[Z|[Z|(k & Z & e & IN & EK)]]]; auto.
      * left. split; [exact Z|]. split; [|exact H2]. intros _. destruct polls as [|polls]; [|apply CC; lia].
        cbn [recv_task] in Y1. injection Y1 as <- <- <- <- <-. exact CE.
      * right; right; right. exists k. split; [exact Z|]. exists e. rewrite QU. split; [apply in_or_app; auto|exact EK].
  - exists rb1, st1, r1, got1, rest1, d1, todo1, (Ready x). split; [reflexivity|]. split; [exact X2|]. split; [exact X3|].
    split; [exact X4|]. split; [exists u1; split; [exact QU|split; discriminate]|].
    split; [exists tk1; exact X6|].
    destruct X7 as [(Z & _)|X7]; [discriminate|]. auto.
Qed.
End Loop.

(** ** C98 *)

(** The connection carries the messages [ws] and then [t], the beginning of one more message (empty if the connection ends between
    two messages); [plan] is what it answers.  After any number of polls:
    - the items received are the first ones of those sent;
    - if the task is pending, every message that has arrived in full has been handed out already; the last answer of the
      connection was "pending", so that it will wake the task; and it has given that answer at least as often as the task was polled;
    - otherwise it has ended as the blocking loop of C94 does. *)
Theorem C98_task : forall A (c : codec A) prompt ws items t u a inner plan fuel turns polls,
  wf c -> reports prompt c -> delim c = SD -> dec_again c = true -> busy c = true ->
  Forall2 (fun w i => reads c w i /\ w <> []) ws items -> reads c (t ++ u) a -> u <> [] ->
  0 < length inner < fuel -> (N.of_nat (length inner) <= isize_max)%N ->
  ~ In (Some RdZero) plan -> ~ In (Some (RdErr IoWouldBlock)) plan -> length (concat ws ++ t) < turns ->
  exists rb s r got rest o,
    recv_task (maybe_decoder (decoder c)) fuel turns polls (rb_new inner) (maybe_new (dec_fresh c))
      (mkAReader (concat ws ++ t) plan) [] = (rb, s, r, got, o) /\ items = got ++ rest /\
    ((o = Pending /\
      (exists arrived, concat ws ++ t = arrived ++ ar_data r /\
         forall n, n <= length ws -> length (concat (firstn n ws)) <= length arrived -> n <= length got) /\
      (0 < polls -> exists answers, plan = answers ++ [None] ++ ar_plan r) /\
      polls + pendings (ar_plan r) <= pendings plan) \/
     (o = Ready (Ok tt) /\ rest = [] /\ t = []) \/
     (o = Ready (Err UnexpectedEos) /\ rest = [] /\ t <> []) \/
     (exists k, o = Ready (Err k) /\ poll_failed plan k)).
Proof.
  intros A c g ws items t u a inner plan fuel turns polls WF RP DL AG BU HW R NU [I0 FU] IM NZ RR LT.
  destruct (proj1 term_cuts A c WF g RP) as (_ & P & Q & H & H0 & HA & HB). rewrite DL in H.
  specialize (HA AG). specialize (HB BU).
  assert (H' : forall s w i, P s -> reads c w i -> cuts (decoder c) SD g P s w i).
  { intros s w i X Y. eapply cuts_post; [exact HA|]. apply H; auto. }
  assert (OK : rb_ok (rb_new inner)) by (split; [cbn; lia|right; auto]).
  assert (HH : holds (decoder c) g P (reads c) (length inner) t u a (rb_new inner) (maybe_new (dec_fresh c))
                 (mkAReader (concat ws ++ t) plan) items ws).
  { split; [exact OK|]. split; [reflexivity|]. split; [discriminate|]. split; [exact RR|]. split; [exact NZ|].
    apply (@waits_new _ _ _ _ _ _ H' HB); auto. }
  destruct (@recv_task_ok _ _ (decoder c) g P (reads c) fuel (length inner) H' HB FU I0 IM t u a NU R turns polls _ _ _ [] _ _ HH LT)
    as (rb & s & r & got & rest & dn & todo & o & X1 & X2 & X3 & X4 & (used & QU & UP & NP) & (arrived & QA) & X7).
  exists rb, s, r, got, rest, o. split; [exact X1|]. split; [exact X2|].
  destruct X7 as [(-> & CE & OK' & _ & _ & _ & _ & W)|X7]; [|auto]. left. split; [reflexivity|].
  cbn [ar_plan] in QU. split; [|split].
  - cbn [length] in X4.
    assert (C0 : rb_content rb = []).
    { destruct polls as [|polls]; [|apply CE; lia]. cbn [recv_task] in X1. injection X1 as <- <- <- <-. reflexivity. }
    rewrite C0 in W. cbn [app] in W. destruct W as [_ W].
    rewrite C0 in QA. change (rb_content (rb_new inner)) with (@nil byte) in QA. cbn [ar_data app] in QA.
    exists arrived. split; [exact QA|]. intros n LN LE.
    destruct (Nat.le_gt_cases n (length got)) as [|GT]; [assumption|exfalso]. subst ws.
    rewrite firstn_app in LE. rewrite firstn_all2 in LE by lia.
    destruct todo as [|w1 todo]; [rewrite app_nil_r in LN; lia|]. 
    destruct rest as [|i is]; [contradiction|]. destruct W as (dr & _ & ND & _ & QR).
    assert (LA : length (concat todo ++ t) < length (ar_data r)).
    { rewrite QR, (app_length dr). destruct dr; [congruence|cbn; lia]. }
    destruct (n - length dn) as [|m] eqn:EM; [lia|]. cbn [firstn] in LE.
    apply (f_equal (@length _)) in QA. rewrite !concat_app, !app_length in *. cbn [concat] in *. rewrite !app_length in *.
    lia.
  - intro Z. destruct (UP eq_refl Z) as (u' & UE). exists u'. rewrite QU, UE, <- app_assoc. reflexivity.
  - specialize (NP eq_refl). rewrite QU, pendings_app. lia.
Qed.
Print Assumptions C98_task.

(** So if no read fails, a task that is polled once more than the connection answers "pending" has received everything, and tells the
    two ends apart. *)
Corollary C98_decides : forall A (c : codec A) prompt ws items t u a inner plan fuel turns polls,
  wf c -> reports prompt c -> delim c = SD -> dec_again c = true -> busy c = true ->
  Forall2 (fun w i => reads c w i /\ w <> []) ws items -> reads c (t ++ u) a -> u <> [] ->
  0 < length inner < fuel -> (N.of_nat (length inner) <= isize_max)%N ->
  ~ In (Some RdZero) plan -> (forall e, ~ In (Some (RdErr e)) plan) ->
  length (concat ws ++ t) < turns -> pendings plan < polls ->
  exists rb s r, recv_task (maybe_decoder (decoder c)) fuel turns polls (rb_new inner) (maybe_new (dec_fresh c))
      (mkAReader (concat ws ++ t) plan) []
    = (rb, s, r, items, Ready (match t with [] => Ok tt | _ => Err UnexpectedEos end)).
Proof.
  intros A c g ws items t u a inner plan fuel turns polls WF RP DL AG BU HW R NU I0 IM NZ NE LT LP.
  destruct (@C98_task A c g ws items t u a inner plan fuel turns polls) as (rb & s & r & got & rest & o & X & Q & Y); auto.
  exists rb, s, r. rewrite X.
  destruct Y as [(_ & _ & _ & L)|[(-> & -> & ->)|[(-> & -> & NT)|(k & _ & e & IN & _)]]];
    [lia| | |elim (NE _ IN)]; rewrite app_nil_r in Q; subst; [reflexivity|]. destruct t; [congruence|reflexivity].
Qed.
Print Assumptions C98_decides.

(** A task that goes to sleep as soon as [poll_fill] is pending does not hand out a message that has arrived, however
    often it is polled while the connection is silent: if the peer waits for an answer, both wait. *)
Theorem C98_hasty_refuted : forall n, exists rb s r,
  hasty_task (decoder (CU NU16be)) 99 99 n (rb_new [x00; x00; x00]) (dec_fresh (CU NU16be))
    (mkAReader [x01; x02] (Some (RdSome 1) :: repeat None n)) [] = (rb, s, r, [], Pending) /\
  (0 < n -> rb_content rb = [x01; x02] /\ ar_data r = []).
Proof.
  intros [|n]; [eexists _, _, _; split; [reflexivity|lia]|].
  cbn [repeat hasty_task].
  assert (H : forall m s it, hasty_task (decoder (CU NU16be)) 99 99 m (mkReadBuf [x01; x02; x00] 0 2 StWouldBlock)
              s (mkAReader [] (repeat None m)) it
            = (mkReadBuf [x01; x02; x00] 0 2 StWouldBlock, s, mkAReader [] [], it, Pending)).
  { induction m as [|m IH]; intros s it; [reflexivity|]. cbn [repeat hasty_task].
    replace (hasty_poll _ _ _ _ s _ it) with (mkReadBuf [x01; x02; x00] 0 2 StWouldBlock, s, mkAReader [] (repeat None m), it, @Pending (res unit))
      by reflexivity. apply IH. }
  replace (hasty_poll _ _ _ _ _ _ _) with (mkReadBuf [x01; x02; x00] 0 2 StWouldBlock, dec_fresh (CU NU16be), mkAReader [] (repeat None n), @nil N, @Pending (res unit))
    by reflexivity.
  rewrite H. eexists _, _, _. split; [reflexivity|]. intros _. split; reflexivity.
Qed.
Print Assumptions C98_hasty_refuted.

(** The messages of C94; a buffer of 3 bytes; the task is polled three times, and until the end. *)
Definition ex_answers : list (option RdPlan) :=
  [None; Some (RdSome 0); None; Some (RdSome 5); Some (RdSome 5); Some (RdSome 5); Some (RdSome 5); None; None; Some (RdSome 0)].
Example C98_example : wf ex_fix /\ reports true ex_fix /\ delim ex_fix = SD /\ dec_again ex_fix = true /\
  busy ex_fix = true /\ reads ex_fix ex_m1 ex_i1 /\ reads ex_fix ex_m2 ex_i2 /\
  ~ In (Some RdZero) ex_answers /\ (forall e, ~ In (Some (RdErr e)) ex_answers) /\ pendings ex_answers < 5 /\
  (exists rb s r, recv_task (maybe_decoder (decoder ex_fix)) 99 99 3 (rb_new [x00; x00; x00]) (maybe_new (dec_fresh ex_fix))
    (mkAReader (ex_m1 ++ firstn 3 ex_m2) ex_answers) [] = (rb, s, r, [ex_i1], Pending) /\ ar_data r = []) /\
  (exists rb s r, recv_task (maybe_decoder (decoder ex_fix)) 99 99 5 (rb_new [x00; x00; x00]) (maybe_new (dec_fresh ex_fix))
    (mkAReader (ex_m1 ++ firstn 3 ex_m2) ex_answers) [] = (rb, s, r, [ex_i1], Ready (Err UnexpectedEos))) /\
  (exists rb s r, recv_task (maybe_decoder (decoder ex_fix)) 99 99 5 (rb_new [x00; x00; x00]) (maybe_new (dec_fresh ex_fix))
    (mkAReader (ex_m1 ++ ex_m2) ex_answers) [] = (rb, s, r, [ex_i1; ex_i2], Ready (Ok tt))).
Proof.
  pose proof C94_example as (W & RP & X1 & X2 & X3 & R1 & R2 & _).
  split; [exact W|]. split; [exact RP|]. split; [exact X1|]. split; [exact X2|]. split; [exact X3|].
  split; [exact R1|]. split; [exact R2|]. split; [cbn; intuition discriminate|].
  split; [intro e; cbn; intuition discriminate|]. split; [cbn; lia|].
  split; [|split]; eexists _, _, _; [split; vm_compute; reflexivity|vm_compute; reflexivity|vm_compute; reflexivity].
Qed.
