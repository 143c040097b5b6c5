(** * C103: when a task on an asynchronous stream may sleep. *)
From Coq Require Import Lia ZifyBool ZifyNat ZifyN.
From Verif Require Import Nap IoProofs Lib Universe Examples Prim Fixnum Props_Io Props_Task Props_TaskSend Props_Service Props_Nap.
Set Implicit Arguments.

Definition rpend (plan : list (option RdPlan)) (rb : ReadBuf) (rd : AReader) : Prop :=
  rb_ok rb /\ ready_means_ready rd /\ (exists u, plan = u ++ ar_plan rd) /\
  (rb_state rb = StWouldBlock -> rb_is_full rb = false /\ exists u, plan = u ++ [None] ++ ar_plan rd).
Definition wpend (plan : list (option WrPlan)) (wb : WriteBuf) (wr : AWriter) : Prop :=
  wb_ok wb /\ wready_means_ready wr /\ (exists u, plan = u ++ aw_plan wr) /\
  (wb_state wb = StWouldBlock -> exists u, plan = u ++ [None] ++ aw_plan wr).

Lemma suffix_in : forall A (u l : list A) x, ~ In x (u ++ l) -> ~ In x l.
Proof. intros A u l x H Z. apply H, in_or_app. auto. Qed.

Lemma poll_fill_pend : forall plan b r b' r' p, rpend plan b r -> rb_poll_fill b r = (b', r', p) -> rpend plan b' r' /\
  (p = Pending -> rb_state b' = StWouldBlock) /\
  (p = Ready (Ok tt) -> rb_state b' = StEos \/ rb_is_full b' = true).
Proof.
  intros plan b r b' r' p (OK & RR & (u & E) & W) H.
  destruct (C45_poll_fill _ RR H) as (FI & PW & WP).
  destruct (poll_fill_used _ _ _ H) as (u1 & E1 & UP).
  assert (RR' : ready_means_ready r') by (unfold ready_means_ready in *; rewrite E1 in RR; eapply suffix_in; exact RR).
  destruct (fill_spec _ OK FI) as (data & r1 & _ & OK' & CA & _ & TA & Y).
  split; [|split; [exact PW|]].
  - split; [exact OK'|]. split; [exact RR'|]. split; [exists (u ++ u1); rewrite E, E1, app_assoc; reflexivity|].
    intro B. destruct (WP B) as [PE|(B0 & -> & ->)]; [|exact (W B0)]. split.
    + destruct Y as [(L & _ & _ & ST)|(L & _)].
      * rewrite B in ST. destruct data; [|discriminate]. destruct (W (eq_sym ST)) as (NF & _). exfalso.
        unfold rb_is_full, rb_capacity in *. cbn in L. destruct OK as [L1 _]. apply Nat.eqb_neq in NF. lia.
      * unfold rb_is_full, rb_capacity in *. apply Nat.eqb_neq. lia.
    + destruct (UP PE) as (u' & ->). exists (u ++ u'). rewrite E, E1, <- !app_assoc. reflexivity.
  - intros ->. cbn [sync_result] in *. destruct Y as [(L & _)|(L & o & e & R & EN & RE & ST)].
    + right. unfold rb_is_full, rb_capacity in *. apply Nat.eqb_eq. destruct OK as [L1 _]. lia.
    + destruct e as [| |e]; [left; exact ST| |discriminate RE].
      assert (FB : fresh_read b) by (intro Z; apply W; exact Z).
      destruct (fill_fresh _ _ FB H) as (_ & Z & _). destruct (Z ST) as [Q|[Q|Q]]; discriminate Q.
Qed.
Lemma poll_flush_pend : forall plan b w b' w' p, wpend plan b w -> wb_poll_flush b w = (b', w', p) -> wpend plan b' w' /\
  (p = Pending -> wb_state b' = StWouldBlock) /\
  (p = Ready (Ok tt) -> wb_state b' = StEos \/ wb_is_empty b' = true).
Proof.
  intros plan b w b' w' p (OK & RR & (u & E) & W) H.
  destruct (C45_poll_flush _ RR H) as ((k & FI) & PW & WP).
  destruct (poll_flush_used _ _ _ H) as (u1 & E1 & UP).
  assert (RR' : wready_means_ready w') by (unfold wready_means_ready in *; rewrite E1 in RR; eapply suffix_in; exact RR).
  destruct (flush_spec _ OK FI) as ((rest & w1 & _ & OK' & _ & CO & _ & Y) & _).
  split; [|split; [exact PW|]].
  - split; [exact OK'|]. split; [exact RR'|]. split; [exists (u ++ u1); rewrite E, E1, app_assoc; reflexivity|].
    intro B. destruct (WP B) as [PE|(B0 & -> & ->)]; [|exact (W B0)].
    destruct (UP PE) as (u' & ->). exists (u ++ u'). rewrite E, E1, <- !app_assoc. reflexivity.
  - intros ->. cbn [sync_result] in *. destruct Y as [(-> & _)|(NE & o & e & R & EN & RE & ST)].
    + right. apply (content_empty OK'). exact CO.
    + destruct e as [| |e]; [left; exact ST| |discriminate RE].
      destruct (WP ST) as [Z|(B0 & Z1 & Z2)]; [discriminate Z|]. subst b' w'.
      unfold wb_poll_flush in H. cbn [wb_poll_flush_loop] in H. destruct (wb_is_empty b) eqn:EM; [auto|]. exfalso.
      assert (FB : fresh_write b) by (intro; exact EM).
      assert (H' : wb_poll_flush_loop (S (wb_tail b)) b w = (b, w, Ready (Ok tt))) by (cbn [wb_poll_flush_loop]; rewrite EM; exact H).
      destruct (flush_fresh _ _ FB H') as (_ & Z & _). destruct (Z ST) as [Q|[Q|Q]]; discriminate Q.
Qed.

Lemma aworked_inv : forall data rplan out wplan rsize wsize b,
  ~ In (Some (RdErr IoWouldBlock)) rplan -> ~ In (Some (WrErr IoWouldBlock)) wplan ->
  aworked (ab_new (mkAReader data rplan) (mkAWriter out wplan) rsize wsize) b ->
  rpend rplan (ab_rbuf b) (ab_rd b) /\ wpend wplan (ab_wbuf b) (ab_wr b).
Proof.
  intros data rplan out wplan rsize wsize b RR WRR H.
  induction H as [|b b' p H (HR & HW) X|rd wr rb wb k rb' x H (HR & HW) X|rd wr rb wb S I D fuel s s' rb' x H (HR & HW) HO X
                 |rd wr rb wb d wb' x H (HR & HW) X|rd wr rb wb S I E fuel s s' wb' x H (HR & HW) HO X]; cbn [ab_rbuf ab_wbuf ab_rd ab_wr] in *.
  - split; (split; [split; cbn; lia|split; [assumption|split; [exists []; reflexivity|discriminate]]]).
  - destruct (C45_execute_io_poll _ X) as (pr & pw & F & G & _).
    split; [eapply poll_fill_pend; eassumption|eapply poll_flush_pend; eassumption].
  - split; [|exact HW]. destruct HR as (OK & R1 & R2 & W). rewrite read_spec in X by exact OK. inversion X; subst.
    assert (L : Nat.min k (length (rb_content rb)) <= length (rb_content rb)) by lia.
    destruct (consume_ok OK L) as (OK' & _). split; [exact OK'|]. split; [exact R1|]. split; [exact R2|].
    intro B. rewrite consume_state in B. destruct (W B) as (NF & P). split; [|exact P]. apply consume_room; assumption.
  - destruct (@decode_buf_spec _ _ _ _ _ _ _ _ _ (proj1 HR) X) as (r & DE & Y). split; [|exact HW].
    destruct r as [n| | |]; destruct Y as [_ ->]; try exact HR. pose proof (HO _ _ _ DE) as L.
    destruct HR as (OK & R1 & R2 & W).
    destruct (consume_ok OK L) as (OK' & _). split; [exact OK'|]. split; [exact R1|]. split; [exact R2|].
    intro B. rewrite consume_state in B. destruct (W B) as (NF & P). split; [|exact P]. apply consume_room; assumption.
  - destruct HW as (OK & R1 & R2 & W). destruct (write_spec d OK) as (b' & X' & OK' & _ & ST & _).
    rewrite X in X'. inversion X'; subst. split; [exact HR|]. split; [exact OK'|]. split; [exact R1|]. split; [exact R2|]. rewrite ST. exact W.
  - destruct HW as (OK & R1 & R2 & W). destruct (@encode_buf_spec _ _ _ _ _ _ _ _ _ OK X) as (d' & r & EE & IN & HE & ST & _ & Y).
    destruct (HO _ _ _ _ _ EE) as (LE & LN). split; [exact HR|]. split; [|split; [exact R1|split; [exact R2|rewrite ST; exact W]]].
    destruct OK as [L1 L2]. unfold wb_ok, indices_ok. rewrite IN, HE, app_length, firstn_length, LE, skipn_length.
    rewrite skipn_length in LN. destruct r as [n| | |]; destruct Y as [_ ->]; try (split; lia).
    specialize (LN n eq_refl). split; lia.
Qed.

(** ** C103 *)

(** A task that sleeps when [would_block] says so will be woken.  Whatever was done with the buffers before, the latest [poll_read] was
    pending, so the stream has the waker of the task, and there is room for what it will bring; and the latest [poll_write] was
    pending, unless there is nothing to write. *)
Theorem C103_asleep : forall data rplan out wplan rsize wsize b,
  ~ In (Some (RdErr IoWouldBlock)) rplan -> ~ In (Some (WrErr IoWouldBlock)) wplan ->
  aworked (ab_new (mkAReader data rplan) (mkAWriter out wplan) rsize wsize) b -> ab_would_block b = true ->
  (exists before, rplan = before ++ [None] ++ ar_plan (ab_rd b)) /\ rb_is_full (ab_rbuf b) = false /\
  (wb_content (ab_wbuf b) = [] \/ exists before, wplan = before ++ [None] ++ aw_plan (ab_wr b)).
Proof.
  intros data rplan out wplan rsize wsize b RR WRR H B.
  destruct (aworked_inv RR WRR H) as ((OK & _ & _ & W) & (OKw & _ & _ & Ww)).
  unfold ab_would_block in B. apply andb_prop in B as [B1 B2]. apply orb_prop in B2.
  assert (S1 : rb_state (ab_rbuf b) = StWouldBlock) by (destruct (rb_state (ab_rbuf b)); cbn in B1; congruence).
  destruct (W S1) as (NF & P). split; [exact P|]. split; [exact NF|]. destruct B2 as [B2|B2].
  - left. apply (content_empty OKw). exact B2.
  - right. apply Ww. destruct (wb_state (ab_wbuf b)); cbn in B2; congruence.
Qed.
Print Assumptions C103_asleep.

(** After [execute_io_poll]: if it is pending, [would_block] is true.  If it has succeeded and [would_block] is false, the stream is at
    its end or the read buffer is full. *)
Theorem C103_otherwise : forall data rplan out wplan rsize wsize b b' p,
  ~ In (Some (RdErr IoWouldBlock)) rplan -> ~ In (Some (WrErr IoWouldBlock)) wplan ->
  aworked (ab_new (mkAReader data rplan) (mkAWriter out wplan) rsize wsize) b -> ab_execute_poll b = (b', p) ->
  (p = Pending -> ab_would_block b' = true) /\
  (p = Ready (Ok tt) -> ab_would_block b' = true \/ ab_is_eos b' = true \/ rb_is_full (ab_rbuf b') = true).
Proof.
  intros data rplan out wplan rsize wsize b b' p RR WRR H X.
  destruct (aworked_inv RR WRR H) as (HR & HW). unfold ab_execute_poll in X.
  destruct (rb_poll_fill (ab_rbuf b) (ab_rd b)) as [[rb rd] pr] eqn:F.
  destruct (wb_poll_flush (ab_wbuf b) (ab_wr b)) as [[wb wr] pw] eqn:G. injection X as <- X.
  destruct (poll_fill_pend HR F) as (_ & F1 & F2). destruct (poll_flush_pend HW G) as (_ & G1 & G2).
  unfold ab_would_block, ab_is_eos. cbn [ab_rbuf ab_wbuf].
  split; intros ->.
  - destruct pr as [|[[]| | |]], pw as [|[[]| | |]]; try discriminate X. rewrite (F1 eq_refl), (G1 eq_refl). apply orb_true_r.
  - assert (A : pr = Pending \/ pr = Ready (Ok tt)) by (destruct pr as [|[[]| | |]], pw as [|[[]| | |]]; auto; discriminate X).
    assert (B : pw = Pending \/ pw = Ready (Ok tt)) by (destruct pr as [|[[]| | |]], pw as [|[[]| | |]]; auto; discriminate X).
    destruct A as [A|A]; [rewrite (F1 A)|destruct (F2 A) as [->| ->]; [right; left; reflexivity|auto]].
    destruct B as [B|B]; [rewrite (G1 B); left; apply orb_true_r|].
    destruct (G2 B) as [->| ->]; [right; left; reflexivity|left; reflexivity].
Qed.
Print Assumptions C103_otherwise.

(** Two bytes have arrived, and the reply waits for the stream. *)
Example C103_example : exists b, aworked (ab_new (mkAReader [x00; x01; x02] [Some (RdSome 1); None; None]) (mkAWriter [] [Some (WrSome 0); None]) 4 2) b /\
  ab_would_block b = true /\ rb_content (ab_rbuf b) = [] /\ aw_data (ab_wr b) = [x00] /\ wb_content (ab_wbuf b) = [x01].
Proof.
  eexists. split.
  - eapply aworked_io; [eapply aworked_write with (data := [x00; x01])|].
    + eapply aworked_decode with (D := decoder (CU NU16be)) (fuel := 9) (s := dec_fresh (CU NU16be)).
      * eapply aworked_io; [apply aworked_new|vm_compute; reflexivity].
      * intros e s1 n H. vm_compute in H. inversion H. vm_compute. lia.
      * vm_compute. reflexivity.
    + vm_compute. reflexivity.
    + vm_compute. reflexivity.
  - vm_compute. auto.
Qed.

(** The result of [execute_io_poll] is not the condition to sleep on: while the peer is silent and there is nothing to write,
    [would_block] is true and [execute_io_poll] is ready. *)
Theorem C103_ready_refuted : forall data rplan wplan rsize wsize, 0 < rsize -> exists b',
  ab_execute_poll (ab_new (mkAReader data (None :: rplan)) (mkAWriter [] wplan) rsize wsize) = (b', Ready (Ok tt)) /\
  ab_would_block b' = true.
Proof.
  intros data rplan wplan rsize wsize L. destruct rsize as [|n]; [lia|].
  eexists. split; [reflexivity|reflexivity].
Qed.
Print Assumptions C103_ready_refuted.
