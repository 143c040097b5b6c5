(** * C81: wake-ups of tasks that wait for room in a write buffer *)
From Coq Require Import Lia ZifyBool ZifyNat ZifyN.
From Verif Require Import Wake IoProofs Props_Io Lib.
Set Implicit Arguments.

Lemma last_parked_app : forall a b,
  last_parked (a ++ b) = match last_parked b with Some t => Some t | None => last_parked a end.
Proof.
  induction a as [|e a IH]; intro b; cbn.
  - destruct (last_parked b); reflexivity.
  - rewrite IH. destruct (last_parked b); reflexivity.
Qed.

Lemma exists_last_or_nil : forall A (l : list A), l = [] \/ exists l' x, l = l' ++ [x].
Proof.
  intros A l. destruct l as [|x l]; [auto|]. right.
  destruct (@exists_last A (x :: l)) as (l' & y & E); [discriminate|]. eauto.
Qed.

Lemma encode_buf_ok : forall S I (E : Encoder S I) fuel s b s' b' x, wb_ok b ->
  encode_to_write_buf E fuel s b = (s', b', x) -> fits b b' -> wb_ok b' /\ wb_waker b' = wb_waker b.
Proof.
  intros S I E fuel s b s' b' x OK H F.
  destruct (encode_buf_spec _ _ _ OK H) as (d' & r & _ & _ & HH & _ & K & R).
  split; [|exact K]. split; [exact (proj1 F)|]. destruct OK as [L O]. rewrite HH.
  destruct r; destruct R as (_ & T); rewrite T; lia.
Qed.

Lemma poll_flush_waker : forall fuel b w b' w' x, wb_ok b ->
  wb_poll_flush_loop fuel b w = (b', w', x) ->
  wb_ok b' /\ wb_waker b' = wb_waker b /\ wb_inner b' = wb_inner b.
Proof.
  induction fuel as [|fuel IH]; intros b w b' w' x OK H; cbn [wb_poll_flush_loop] in H;
    destruct (wb_is_empty b); try (injection H as <- <- <-; auto; fail).
  rewrite (window_some OK) in H. fold (wb_content b) in H.
  destruct (poll_write w (wb_content b)) as [w1 o] eqn:W.
  assert (ST : forall st, wb_ok (wb_set_state b st) /\ wb_waker (wb_set_state b st) = wb_waker b /\
            wb_inner (wb_set_state b st) = wb_inner b)
    by (intro; split; [exact OK|split; reflexivity]).
  destruct o as [|[[|n]|e]]; try (injection H as <- <- <-; auto; fail).
  assert (LN : Datatypes.S n <= length (wb_content b)).
  { unfold poll_write in W. destruct (aw_plan w) as [|[p|] q]; [| |discriminate W].
    - destruct (wr_write (mkWriter (aw_data w) []) (wb_content b)) as [w2 o2] eqn:W2.
      injection W as _ ->. apply (wr_write_data _ _ W2).
    - destruct (wr_write (mkWriter (aw_data w) [p]) (wb_content b)) as [w2 o2] eqn:W2.
      injection W as _ ->. apply (wr_write_data _ _ W2). }
  destruct (advance_ok OK LN) as (OK1 & _ & I1 & _ & K1).
  destruct (IH _ _ _ _ _ OK1 H) as (A & B & C). split; [exact A|split; congruence].
Qed.

Lemma waiting_inv : forall inner log b, waiting inner log b ->
  wb_ok b /\ wb_waker b = last_parked log /\ wb_capacity b = length inner.
Proof.
  induction 1 as [|log b S I E fuel s s' b' task _ (OK & K & CP) H F|log b S I E fuel s s' b' task x _ (OK & K & CP) H NX F
                 |log b S I E fuel s s' b' x _ (OK & K & CP) H F|log b data b' x _ (OK & K & CP) H
                 |log b w b' w' x woken _ (OK & K & CP) H|log b w b' w' x _ (OK & K & CP) H|log b st _ (OK & K & CP)].
  - split; [apply wnew_ok|split; reflexivity].
  - unfold encode_to_write_buf_async in H.
    destruct (encode_to_write_buf E fuel s b) as [[s1 b1] x1] eqn:E1.
    destruct x1; try discriminate H. injection H as <- <-.
    destruct (encode_buf_ok _ _ _ OK E1 F) as [OK1 _]. rewrite last_parked_app.
    split; [exact OK1|]. split; [reflexivity|]. rewrite (proj2 F). exact CP.
  - unfold encode_to_write_buf_async in H.
    destruct (encode_to_write_buf E fuel s b) as [[s1 b1] x1] eqn:E1.
    destruct x1; try (injection H as <- <- <-; destruct (encode_buf_ok _ _ _ OK E1 F) as [OK1 K1];
      split; [exact OK1|split; [congruence|rewrite (proj2 F); exact CP]]).
  - destruct (encode_buf_ok _ _ _ OK H F) as [OK1 K1].
    split; [exact OK1|split; [congruence|rewrite (proj2 F); exact CP]].
  - destruct (write_spec data OK) as (b1 & E1 & OK1 & C1 & _ & K1 & _). rewrite E1 in H.
    injection H as <- _. split; [exact OK1|split; congruence].
  - destruct (flush_spec _ OK H) as [(rest & w1 & _ & OK' & I' & _ & K' & _) _].
    split; [exact OK'|]. unfold wb_capacity in *. split; [|congruence].
    rewrite last_parked_app. destruct woken; cbn; congruence.
  - destruct (poll_flush_waker _ _ OK H) as (A & B & C).
    unfold wb_capacity in *. split; [exact A|split; congruence].
  - split; [exact OK|split; [exact K|exact CP]].
Qed.

(** ** Whom [flush] wakes

    Whatever happened to the buffer before: a [flush] that succeeds and leaves room wakes the
    task that left its waker last, and nobody if no task ever did; any other [flush] wakes
    nobody.  So no wake-up is lost unless another task came after it. *)
Theorem C81_flush_wakes : forall inner log b w b' w' x woken,
  waiting inner log b -> wb_flush b w = (b', w', x, woken) ->
  woken = last_parked log /\ x = Ok tt /\ wb_room b' <> Ok 0 \/
  woken = None /\ ((exists e, x = Err e) \/ wb_room b' = Ok 0).
Proof.
  intros inner log b w b' w' x woken W H. destruct (waiting_inv W) as (OK & K & _).
  destruct (C45_waker (mkEncoder (fun _ (s : unit) d _ => (s, d, Ok 0)) (fun _ s (_ : unit) => (s, Ok tt))
             (fun _ => Ok (Finite 0%N)) (fun _ => true)) w OK) as (_ & _ & _ & F).
  destruct (F _ _ _ _ H) as [_ G]. rewrite K in G. exact G.
Qed.
Print Assumptions C81_flush_wakes.

(** What "left its waker last" means: it did, and none did after it. *)
Theorem C81_last_parked : forall log t,
  last_parked log = Some t <->
  exists before after, log = before ++ Parked t :: after /\ forall t', ~ In (Parked t') after.
Proof.
  assert (N : forall log, last_parked log = None <-> forall t, ~ In (Parked t) log).
  { induction log as [|e log [IH1 IH2]]; cbn.
    - split; [intros _ t []|reflexivity].
    - destruct (last_parked log) eqn:E.
      + split; [discriminate|]. intro H. apply IH2. intros t HI. exact (H t (or_intror HI)).
      + destruct e as [u|u].
        * split; [discriminate|]. intro H. destruct (H u (or_introl eq_refl)).
        * split; [|reflexivity]. intros _ t [X|X]; [discriminate X|]. exact (IH1 eq_refl t X). }
  intros log t. split.
  - induction log as [|e log IH]; cbn; [discriminate|].
    destruct (last_parked log) as [u|] eqn:E.
    + intro H. destruct (IH H) as (before & after & -> & A). exists (e :: before), after. auto.
    + destruct e as [u|u]; [|discriminate]. intro H. injection H as ->.
      exists [], log. split; [reflexivity|]. apply N. exact E.
  - intros (before & after & -> & A). rewrite last_parked_app. cbn.
    apply N in A. rewrite A. reflexivity.
Qed.
Print Assumptions C81_last_parked.

(** ** Only a waiting task is woken, and only the latest

    In every history, whoever is woken had left its waker, and no other task had since. *)
Theorem C81_woken_had_parked : forall inner log b before t after,
  waiting inner log b -> log = before ++ Woke t :: after -> last_parked before = Some t.
Proof.
  intros inner log b before t after W. revert before after.
  induction W as [|log b S I E fuel s s' b' task W IH H F|log b S I E fuel s s' b' task x W IH H NX F
                 |log b S I E fuel s s' b' x W IH H F|log b data b' x W IH H
                 |log b w b' w' x woken W IH H|log b w b' w' x W IH H|log b st W IH];
    intros before after L; eauto.
  - destruct before; discriminate L.
  - destruct (exists_last_or_nil after) as [->|(a & l & ->)].
    + apply app_inj_tail in L. destruct L as [_ L]. discriminate L.
    + rewrite app_comm_cons, app_assoc in L. apply app_inj_tail in L. destruct L as [L _].
      exact (IH _ _ L).
  - destruct woken as [u|]; [|rewrite app_nil_r in L; exact (IH _ _ L)].
    destruct (exists_last_or_nil after) as [->|(a & l & ->)].
    + apply app_inj_tail in L. destruct L as [<- L]. injection L as ->.
      destruct (C81_flush_wakes _ W H) as [(A & _ & _)|(A & _)]; [auto|discriminate A].
    + rewrite app_comm_cons, app_assoc in L. apply app_inj_tail in L. destruct L as [L _].
      exact (IH _ _ L).
Qed.
Print Assumptions C81_woken_had_parked.

(** ** Where the documented promise fails

    "This Waker's [wake] will later be called when the [WriteBuf] regains its free space": not if
    another task came later.  From then on, until it leaves its waker again, the first is never
    woken, however often and by whatever calls the buffer is emptied. *)
Theorem C81_later_task_refuted : forall inner log1 t1 log2 t2 log3 b,
  waiting inner (log1 ++ Parked t1 :: log2 ++ Parked t2 :: log3) b ->
  t1 <> t2 -> ~ In (Parked t1) log3 -> ~ In (Woke t1) log3.
Proof.
  intros inner log1 t1 log2 t2 log3 b W NE NP NW.
  apply in_split in NW. destruct NW as (l & r & ->).
  assert (LP : last_parked (log1 ++ Parked t1 :: log2 ++ Parked t2 :: l) = Some t1).
  { apply (C81_woken_had_parked _ _ r W).
    rewrite <- !app_assoc. cbn. rewrite <- !app_assoc. cbn. reflexivity. }
  rewrite app_comm_cons, app_assoc, last_parked_app in LP. cbn in LP.
  destruct (last_parked l) as [u|] eqn:E; [|congruence].
  injection LP as ->. apply C81_last_parked in E. destruct E as (p & q & -> & _).
  apply NP. apply in_or_app. left. apply in_or_app. right. left. reflexivity.
Qed.
Print Assumptions C81_later_task_refuted.

(** Nor when bytes have gone out of a full buffer but not all of them: there is no room and nobody
    is woken until the buffer has been emptied completely. *)
Theorem C81_partial_flush : forall inner log b w b' w' x woken,
  waiting inner log b -> wb_room b = Ok 0 ->
  wb_flush b w = (b', w', x, woken) -> wb_content b' <> [] -> woken = None /\ wb_room b' = Ok 0.
Proof.
  intros inner log b w b' w' x woken W R H NE. destruct (waiting_inv W) as (OK & K & _).
  assert (T : forall fuel b w b' w' x, wb_ok b -> wb_flush_loop fuel b w = (b', w', x) ->
            wb_inner b' = wb_inner b /\ (wb_tail b' = wb_tail b \/ wb_content b' = [])).
  { clear. induction fuel as [|fuel IH]; intros b w b' w' x OK H; cbn [wb_flush_loop] in H;
      destruct (wb_is_empty b); try (injection H as <- <- <-; auto; fail).
    rewrite (window_some OK) in H. fold (wb_content b) in H.
    destruct (wr_write w (wb_content b)) as [w1 o] eqn:E.
    destruct o as [[|n]|[]]; try (injection H as <- <- <-; auto; fail).
    pose proof (wr_write_data _ _ E) as [LN _].
    destruct (advance_ok OK LN) as (OK1 & _ & I1 & _ & _).
    destruct (IH _ _ _ _ _ OK1 H) as [A B]. split; [congruence|].
    destruct B as [B|B]; [|auto]. unfold wb_advance in B.
    destruct (wb_head b + Datatypes.S n =? wb_tail b) eqn:X; cbn in B.
    - right. destruct fuel; cbn [wb_flush_loop] in H; unfold wb_advance in H; rewrite X in H;
        cbn in H; injection H as <- _ _; reflexivity.
    - auto. }
  unfold wb_flush in H. destruct (wb_flush_loop (Datatypes.S (wb_tail b)) b w) as [[b1 w1] x1] eqn:E.
  injection H as <- _ _ <-. destruct (T _ _ _ _ _ _ OK E) as [TI [TT|TT]]; [|congruence].
  assert (F : wb_tail b1 = length (wb_inner b1)).
  { rewrite TI, TT. unfold wb_room in R. destruct OK as [L _]. rewrite usize_sub_ok in R by exact L.
    injection R as R. lia. }
  unfold wb_is_full, wb_room. rewrite F, Nat.eqb_refl, usize_sub_ok by lia. rewrite Nat.sub_diag.
  cbn. destruct x1; auto.
Qed.
Print Assumptions C81_partial_flush.

(** Nor by [poll_flush], which wakes nobody (there is no wake-up in src/io_async.rs:55-91).  It does
    not forget who waits either: the next [flush], even if there is nothing to write any more,
    wakes the task. *)
Theorem C81_poll_flush_defers : forall inner log b w b' w' x,
  waiting inner log b -> wb_poll_flush b w = (b', w', x) -> wb_content b' = [] -> inner <> [] ->
  forall w2, wb_flush b' w2 = (b', w2, Ok tt, last_parked log).
Proof.
  intros inner log b w b' w' x W H C NE w2.
  pose proof (wt_poll_flush _ W H) as W'. destruct (waiting_inv W') as (OK & K & CP).
  assert (EM : wb_is_empty b' = true) by (apply (content_empty OK); exact C).
  assert (T : wb_tail b' = 0).
  { destruct OK as [_ [O|[_ O]]]; [|exact O].
    unfold wb_is_empty in EM. apply Nat.eqb_eq in EM. lia. }
  unfold wb_flush. cbn [wb_flush_loop]. rewrite EM. unfold wb_is_full. rewrite T.
  fold (wb_capacity b'). rewrite CP, K. destruct inner; [congruence|reflexivity].
Qed.
Print Assumptions C81_poll_flush_defers.

(** An encoder that fills what it is given.  Tasks 1 and 2 find the buffer full one after the other;
    a [flush] of one byte wakes nobody; the one that empties the buffer wakes 2 and not 1; the buffer
    is emptied again, by polling, and nobody is woken; the next [flush] wakes 2 again. *)
Definition filler : Encoder unit unit :=
  mkEncoder (fun _ s d _ => (s, repeat x01 (length d), Ok (length d))) (fun _ s _ => (s, Ok tt))
    (fun _ => Ok (Finite 0%N)) (fun _ => false).

Example C81_example : exists b,
  waiting [x00; x00] [Parked 1; Parked 2; Woke 2; Woke 2] b /\
  (exists w' x, wb_flush b (mkWriter [] []) = (b, w', x, Some 2)).
Proof.
  exists (mkWriteBuf [x01; x01] 0 0 StNormal (Some 2)).
  split; [|exists (mkWriter [] []), (Ok tt); reflexivity].
  apply (wt_flush (log := [Parked 1; Parked 2; Woke 2])
           (b := mkWriteBuf [x01; x01] 0 0 StNormal (Some 2)) (mkWriter [] [])
           (woken := Some 2) (w' := mkWriter [] []) (x := Ok tt)); [|reflexivity].
  apply (wt_poll_flush (b := mkWriteBuf [x01; x01] 0 2 StNormal (Some 2)) (mkAWriter [] [])
           (w' := mkAWriter [x01; x01] []) (x := Ready (Ok tt))); [|reflexivity].
  apply (wt_encode (b := mkWriteBuf [x01; x01] 0 0 StNormal (Some 2)) filler 0 tt (s' := tt) (x := Ok tt));
    [|reflexivity|split; cbn; lia].
  apply (wt_flush (log := [Parked 1; Parked 2])
           (b := mkWriteBuf [x01; x01] 1 2 StEos (Some 2)) (mkWriter [] [])
           (woken := Some 2) (w' := mkWriter [x01] []) (x := Ok tt)); [|reflexivity].
  apply (wt_flush (log := [Parked 1; Parked 2])
           (b := mkWriteBuf [x01; x01] 0 2 StNormal (Some 2)) (mkWriter [] [WrSome 0; WrZero])
           (woken := None) (w' := mkWriter [x01] []) (x := Ok tt)); [|reflexivity].
  apply (wt_park (log := [Parked 1]) (b := mkWriteBuf [x01; x01] 0 2 StNormal (Some 1))
           filler 0 tt 2 (s' := tt)); [|reflexivity|split; cbn; lia].
  apply (wt_park (log := []) (b := wb_new [x00; x00]) filler 0 tt 1 (s' := tt));
    [constructor|reflexivity|split; cbn; lia].
Qed.
