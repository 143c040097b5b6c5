(** * C102: when a program over non-blocking I/O may sleep. *)
From Coq Require Import Lia ZifyBool ZifyNat ZifyN.
From Verif Require Import Nap IoProofs Lib Universe Examples Prim Fixnum.
Set Implicit Arguments.

Lemma read_plan : forall r k r' o, rd_read r k = (r', o) -> exists u, rd_plan r = u ++ rd_plan r' /\
  (o = inr IoWouldBlock -> u = [RdErr IoWouldBlock]).
Proof.
  intros [d p] k r' o H. unfold rd_read in H. cbn [rd_plan rd_data] in *.
  destruct p as [|[n| |e] p]; inversion H; subst; cbn [rd_plan].
  - exists []. split; [reflexivity|discriminate].
  - exists [RdSome n]. split; [reflexivity|discriminate].
  - exists [RdZero]. split; [reflexivity|discriminate].
  - exists [RdErr e]. split; [reflexivity|]. intro Z. inversion Z; subst. reflexivity.
Qed.
Lemma write_plan : forall w d w' o, wr_write w d = (w', o) -> exists u, wr_plan w = u ++ wr_plan w' /\
  (o = inr IoWouldBlock -> u = [WrErr IoWouldBlock]).
Proof.
  intros [d p] b w' o H. unfold wr_write in H. cbn [wr_plan wr_data] in *.
  destruct p as [|[n| |e] p]; inversion H; subst; cbn [wr_plan].
  - exists []. split; [reflexivity|discriminate].
  - exists [WrSome n]. split; [reflexivity|discriminate].
  - exists [WrZero]. split; [reflexivity|discriminate].
  - exists [WrErr e]. split; [reflexivity|]. intro Z. inversion Z; subst. reflexivity.
Qed.
Lemma write_grows : forall w d w' o, wr_write w d = (w', o) -> exists s, wr_data w' = wr_data w ++ s.
Proof.
  intros w d w' o R. unfold wr_write in R. destruct (wr_plan w) as [|[q| |e1] p]; inversion R; subst; cbn [wr_data];
    [eexists; reflexivity|eexists; reflexivity|exists []; now rewrite app_nil_r|exists []; now rewrite app_nil_r].
Qed.
Lemma reading_plan : forall r k d r', reading r k d r' -> exists u, rd_plan r = u ++ rd_plan r'.
Proof.
  induction 1 as [r k|r k x d r1 more r' R H (u & IH)]. exists []; reflexivity.
  destruct (read_plan _ _ R) as (u1 & E & _). exists (u1 ++ u). rewrite E, IH, app_assoc. reflexivity.
Qed.
Lemma writing_plan : forall w d rest w', writing w d rest w' -> exists u, wr_plan w = u ++ wr_plan w'.
Proof.
  induction 1 as [w d|w d n w1 rest w' R H (u & IH)]. exists []; reflexivity.
  destruct (write_plan _ _ R) as (u1 & E & _). exists (u1 ++ u). rewrite E, IH, app_assoc. reflexivity.
Qed.

(** What holds of the read half, and of the write half, in all such uses. *)
Definition rinv (plan : list RdPlan) (rb : ReadBuf) (rd : Reader) : Prop :=
  rb_ok rb /\ (exists u, plan = u ++ rd_plan rd) /\
  (rb_state rb = StWouldBlock -> rb_is_full rb = false /\ exists u, plan = u ++ [RdErr IoWouldBlock] ++ rd_plan rd).
Definition winv (plan : list WrPlan) (wb : WriteBuf) (wr : Writer) : Prop :=
  wb_ok wb /\ (exists u, plan = u ++ wr_plan wr) /\
  (wb_state wb = StWouldBlock -> exists u, plan = u ++ [WrErr IoWouldBlock] ++ wr_plan wr).

Lemma fill_inv : forall plan b r b' r' x, rinv plan b r -> rb_fill b r = (b', r', x) -> rinv plan b' r'.
Proof.
  intros plan b r b' r' x (OK & (u & E) & W) H.
  destruct (fill_spec _ OK H) as (data & r1 & RD & OK' & CA & _ & TA & Y).
  destruct (reading_plan RD) as (u1 & E1).
  split; [exact OK'|]. destruct Y as [(L & -> & _ & ST)|(L & o & e & R & EN & _ & ST)].
  - split; [exists (u ++ u1); rewrite E, E1, app_assoc; reflexivity|]. intro B. rewrite B in ST.
    destruct data as [|y data]; [|discriminate]. destruct (W (eq_sym ST)) as (NF & _). exfalso.
    unfold rb_is_full, rb_capacity in *. cbn in L. destruct OK as [L1 _]. apply Nat.eqb_neq in NF. lia.
  - destruct (read_plan _ _ R) as (u2 & E2 & B2).
    split; [exists (u ++ u1 ++ u2); rewrite E, E1, E2, !app_assoc; reflexivity|]. intro B. rewrite B in ST.
    split.
    { unfold rb_is_full, rb_capacity in *. apply Nat.eqb_neq. lia. }
    assert (O : o = inr IoWouldBlock).
    { destruct o as [[|]|[]]; cbn in EN; inversion EN; subst e; try discriminate ST; reflexivity. }
    exists (u ++ u1). rewrite E, E1, E2, (B2 O), <- !app_assoc. reflexivity.
Qed.
Lemma flush_inv : forall plan b w b' w' x k, winv plan b w -> wb_flush b w = (b', w', x, k) -> winv plan b' w'.
Proof.
  intros plan b w b' w' x k (OK & (u & E) & W) H.
  destruct (flush_spec _ OK H) as ((rest & w1 & WR & OK' & _ & CO & _ & Y) & _).
  split; [exact OK'|]. destruct Y as [(-> & -> & _ & ST)|(NE & o & e & R & EN & _ & ST)].
  - destruct (writing_plan WR) as (u1 & E1).
    split; [exists (u ++ u1); rewrite E, E1, app_assoc; reflexivity|]. intro B. rewrite B in ST.
    destruct (wb_content b) as [|y data] eqn:C; [|discriminate].
    inversion WR as [|? ? n w2 ? ? R1 _]; subst; [apply W; congruence|].
    exfalso. unfold wr_write in R1. destruct (wr_plan w) as [|[m| |e] p]; cbn in R1; inversion R1.
  - destruct (writing_plan WR) as (u1 & E1). destruct (write_plan _ _ R) as (u2 & E2 & B2).
    split; [exists (u ++ u1 ++ u2); rewrite E, E1, E2, !app_assoc; reflexivity|]. intro B. rewrite B in ST.
    assert (O : o = inr IoWouldBlock).
    { destruct o as [[|]|[]]; cbn in EN; inversion EN; subst e; try discriminate ST; reflexivity. }
    exists (u ++ u1). rewrite E, E1, E2, (B2 O), <- !app_assoc. reflexivity.
Qed.
Lemma consume_state : forall b n, rb_state (rb_consume b n) = rb_state b.
Proof. intros b n. unfold rb_consume. destruct (_ =? _); reflexivity. Qed.
Lemma consume_room : forall b n, rb_ok b -> rb_is_full b = false -> rb_is_full (rb_consume b n) = false.
Proof.
  intros b n OK NF. unfold rb_is_full in *. apply Nat.eqb_neq in NF. unfold rb_consume in *. destruct OK as [L1 _].
  destruct (rb_head b + n =? rb_tail b); cbn [rb_tail rb_inner] in *; apply Nat.eqb_neq; [|exact NF]. lia.
Qed.
Lemma consume_inv : forall plan b r n, rinv plan b r -> n <= length (rb_content b) -> rinv plan (rb_consume b n) r.
Proof.
  intros plan b r n (OK & E & W) L. destruct (consume_ok OK L) as (OK' & _).
  split; [exact OK'|]. split; [exact E|]. rewrite consume_state. intro B. destruct (W B) as (NF & P). split; [|exact P].
  apply consume_room; assumption.
Qed.

Lemma worked_inv : forall data rplan out wplan rsize wsize b,
  worked (bi_new (mkReader data rplan) (mkWriter out wplan) rsize wsize) b ->
  rinv rplan (bi_rbuf b) (bi_rd b) /\ winv wplan (bi_wbuf b) (bi_wr b).
Proof.
  intros data rplan out wplan rsize wsize b H.
  induction H as [|b b' x k H (HR & HW) X|rd wr rb wb k rb' x H (HR & HW) X|rd wr rb wb S I D fuel s s' rb' x H (HR & HW) HO X
                 |rd wr rb wb d wb' x H (HR & HW) X|rd wr rb wb S I E fuel s s' wb' x H (HR & HW) HO X]; cbn [bi_rbuf bi_wbuf bi_rd bi_wr] in *.
  - split; (split; [split; cbn; lia|split; [exists []; reflexivity|discriminate]]).
  - unfold bi_execute in X. destruct (rb_fill (bi_rbuf b) (bi_rd b)) as [[rb rd] xr] eqn:F. pose proof (fill_inv HR F) as HR'.
    destruct xr as [[]| | |]; try (inversion X; subst; cbn; split; assumption).
    destruct (wb_flush (bi_wbuf b) (bi_wr b)) as [[[wb wr] xw] kw] eqn:G. inversion X; subst. cbn.
    split; [exact HR'|]. eapply flush_inv; eassumption.
  - rewrite read_spec in X by apply HR. inversion X; subst. split; [|exact HW]. apply consume_inv; [exact HR|lia].
  - destruct (@decode_buf_spec _ _ _ _ _ _ _ _ _ (proj1 HR) X) as (r & DE & Y). split; [|exact HW].
    destruct r as [n| | |]; destruct Y as [_ ->]; try exact HR. apply consume_inv; [exact HR|]. eapply HO; exact DE.
  - destruct HW as (OK & E & W). destruct (write_spec d OK) as (b' & X' & OK' & _ & ST & _).
    rewrite X in X'. inversion X'; subst. split; [exact HR|]. split; [exact OK'|]. split; [exact E|]. rewrite ST. exact W.
  - destruct HW as (OK & EP & W). destruct (@encode_buf_spec _ _ _ _ _ _ _ _ _ OK X) as (d' & r & EE & IN & HE & ST & _ & Y).
    destruct (HO _ _ _ _ _ EE) as (LE & LN). split; [exact HR|]. split; [|split; [exact EP|rewrite ST; exact W]].
    destruct OK as [L1 L2]. unfold wb_ok, indices_ok. rewrite IN, HE, app_length, firstn_length, LE, skipn_length.
    rewrite skipn_length in LN. destruct r as [n| | |]; destruct Y as [_ ->]; try (split; lia).
    specialize (LN n eq_refl). split; lia.
Qed.

(** ** C102 *)

(** [would_block] is never stale.  Whatever was done with the buffers before: if it says so, the latest [read] of the stream would have
    blocked, and there is room for what the next one may give; and either there is nothing to write, or the latest [write] would have
    blocked.  A stream that tells when it is ready again will tell. *)
Theorem C102_would_block : forall data rplan out wplan rsize wsize b,
  worked (bi_new (mkReader data rplan) (mkWriter out wplan) rsize wsize) b -> bi_would_block b = true ->
  (exists before, rplan = before ++ [RdErr IoWouldBlock] ++ rd_plan (bi_rd b)) /\ rb_is_full (bi_rbuf b) = false /\
  (wb_content (bi_wbuf b) = [] \/ exists before, wplan = before ++ [WrErr IoWouldBlock] ++ wr_plan (bi_wr b)).
Proof.
  intros data rplan out wplan rsize wsize b H B. destruct (worked_inv H) as ((OK & _ & W) & (OKw & _ & Ww)).
  unfold bi_would_block in B. apply andb_prop in B as [B1 B2]. apply orb_prop in B2.
  assert (S1 : rb_state (bi_rbuf b) = StWouldBlock) by (destruct (rb_state (bi_rbuf b)); cbn in B1; congruence).
  destruct (W S1) as (NF & P). split; [exact P|]. split; [exact NF|]. destruct B2 as [B2|B2].
  - left. apply (content_empty OKw). exact B2.
  - right. apply Ww. destruct (wb_state (bi_wbuf b)); cbn in B2; congruence.
Qed.
Print Assumptions C102_would_block.

(** If a successful [execute_io] does not end so, the stream is at its end (for reading or for writing), or the read buffer is full and
    waits for the program. *)
Theorem C102_otherwise : forall data rplan out wplan rsize wsize b b' woken,
  worked (bi_new (mkReader data rplan) (mkWriter out wplan) rsize wsize) b -> bi_execute b = (b', Ok tt, woken) ->
  bi_would_block b' = true \/ bi_is_eos b' = true \/ rb_is_full (bi_rbuf b') = true.
Proof.
  intros data rplan out wplan rsize wsize b b' k H X. destruct (worked_inv H) as ((OK & _) & (OKw & _)).
  unfold bi_execute in X. destruct (rb_fill (bi_rbuf b) (bi_rd b)) as [[rb rd] xr] eqn:F.
  destruct xr as [[]| | |]; try (inversion X; fail).
  destruct (wb_flush (bi_wbuf b) (bi_wr b)) as [[[wb wr] xw] kw] eqn:G. inversion X; subst. clear X.
  unfold bi_would_block, bi_is_eos. cbn [bi_rbuf bi_wbuf].
  destruct (fill_spec _ OK F) as (d & r1 & _ & OK' & CA & _ & TA & Y).
  destruct Y as [(L & _)|(_ & o & e & _ & _ & RE & ->)].
  { right; right. unfold rb_is_full, rb_capacity in *. apply Nat.eqb_eq. destruct OK as [L1 _]. lia. }
  destruct e as [| |e]; [right; left; reflexivity| |discriminate RE].
  destruct (flush_spec _ OKw G) as ((rest & w1 & _ & OKw' & _ & CO & _ & Y) & _).
  destruct Y as [(-> & _)|(_ & o2 & e2 & _ & _ & RE2 & ->)].
  - left. cbn. apply orb_true_intro. left. apply (content_empty OKw'). exact CO.
  - destruct e2 as [| |e2]; [right; left; reflexivity| |discriminate RE2]. left. cbn. apply orb_true_r.
Qed.
Print Assumptions C102_otherwise.

(** And a program that has slept goes on: if then the stream has bytes to give, the next [execute_io] takes some; if it takes
    bytes and reading does not fail, some of what waits is written. *)
Theorem C102_goes_on : forall data rplan out wplan rsize wsize b b' x woken,
  worked (bi_new (mkReader data rplan) (mkWriter out wplan) rsize wsize) b -> bi_would_block b = true -> bi_execute b = (b', x, woken) ->
  (rd_data (bi_rd b) <> [] -> match rd_plan (bi_rd b) with [] | RdSome _ :: _ => True | _ => False end ->
   exists got, got <> [] /\ rb_content (bi_rbuf b') = rb_content (bi_rbuf b) ++ got) /\
  (wb_content (bi_wbuf b) <> [] -> match wr_plan (bi_wr b) with [] | WrSome _ :: _ => True | _ => False end -> x = Ok tt ->
   exists sent, sent <> [] /\ wr_data (bi_wr b') = wr_data (bi_wr b) ++ sent).
Proof.
  intros data rplan out wplan rsize wsize b b' x k H B X.
  destruct (C102_would_block H B) as (_ & NF & _). destruct (worked_inv H) as ((OK & _) & (OKw & _)).
  unfold bi_execute in X. destruct (rb_fill (bi_rbuf b) (bi_rd b)) as [[rb rd] xr] eqn:F. split.
  - intros ND PL. destruct (fill_spec _ OK F) as (d & r1 & RD & _ & _ & CO & _ & Y).
    assert (RB : bi_rbuf b' = rb).
    { destruct xr as [[]| | |]; try (inversion X; reflexivity).
      destruct (wb_flush (bi_wbuf b) (bi_wr b)) as [[[? ?] ?] ?]. inversion X; reflexivity. }
    exists d. rewrite RB. split; [|exact CO]. intros ->.
    unfold rb_is_full, rb_capacity in *. apply Nat.eqb_neq in NF. destruct OK as [L1 _]. cbn [length] in Y.
    destruct Y as [(L & _)|(_ & o & e & R & EN & _)]; [lia|].
    inversion RD; subst.
    set (room := length (rb_inner (bi_rbuf b)) - rb_tail (bi_rbuf b) - 0) in *. assert (0 < room) by (unfold room; lia).
    unfold rd_read in R. destruct (rd_data (bi_rd b)) as [|y l]; [congruence|].
    destruct (rd_plan (bi_rd b)) as [|[n| |e1] p]; try contradiction.
    + destruct room; [lia|]. inversion R; subst. discriminate EN.
    + destruct room; [lia|]. inversion R; subst. discriminate EN.
  - intros NC PL ->. destruct xr as [[]| | |]; try (inversion X; fail).
    destruct (wb_flush (bi_wbuf b) (bi_wr b)) as [[[wb wr] xw] kw] eqn:G. inversion X; subst. clear X. cbn [bi_wr].
    destruct (flush_spec _ OKw G) as ((rest & w1 & WR & _ & _ & _ & _ & Y) & _).
    assert (ONE : forall w' o, wr_write (bi_wr b) (wb_content (bi_wbuf b)) = (w', o) ->
              exists n sent, o = inl (S n) /\ sent <> [] /\ wr_data w' = wr_data (bi_wr b) ++ sent).
    { intros w' o R. unfold wr_write in R. destruct (wb_content (bi_wbuf b)) as [|y l]; [congruence|].
      destruct (wr_plan (bi_wr b)) as [|[n| |e1] p]; try contradiction; inversion R; subst; cbn [wr_data];
        do 2 eexists; (split; [reflexivity|]); (split; [|reflexivity]); discriminate. }
    assert (GROW : forall w d rest w', writing w d rest w' -> exists s, wr_data w' = wr_data w ++ s).
    { clear. induction 1 as [w d|w d n w1 rest w' R _ (s & IH)]; [exists []; now rewrite app_nil_r|].
      destruct (write_grows _ _ R) as (s1 & E). exists (s1 ++ s). rewrite IH, E, app_assoc. reflexivity. }
    inversion WR as [|? ? n w2 ? ? R1 HW]; subst.
    + destruct Y as [(Z & _)|(_ & o & e & R & EN & _)]; [congruence|].
      destruct (ONE _ _ R) as (n & sent & -> & _). discriminate EN.
    + destruct (ONE _ _ R1) as (m & sent & _ & NS & E1). destruct (GROW _ _ _ _ HW) as (s2 & E2).
      assert (E3 : exists s3, wr_data wr = wr_data w1 ++ s3).
      { destruct Y as [(_ & -> & _)|(_ & o & e & R & EN & _)]; [exists []; now rewrite app_nil_r|]. eapply write_grows; exact R. }
      destruct E3 as (s3 & E3). exists (sent ++ s2 ++ s3). split; [destruct sent; [congruence|discriminate]|].
      rewrite E3, E2, E1, <- !app_assoc. reflexivity.
Qed.
Print Assumptions C102_goes_on.

(** A message of two bytes and the first byte of the next one arrive, then the peer is silent; the reply does not fit into the stream. *)
Definition ex_start := bi_new (mkReader [x00; x01; x00; x02] [RdSome 2; RdErr IoWouldBlock; RdErr IoWouldBlock; RdSome 0])
                              (mkWriter [] [WrSome 0; WrErr IoWouldBlock; WrSome 0]) 4 2.
Example C102_example : exists b b', worked ex_start b /\ bi_would_block b = true /\ bi_execute b = (b', Ok tt, None) /\
  rd_data (bi_rd b) = [x02] /\ rb_content (bi_rbuf b) = [x00] /\ wb_content (bi_wbuf b) = [x01] /\
  rb_content (bi_rbuf b') = [x00; x02] /\ wr_data (bi_wr b') = [x00; x01].
Proof.
  assert (X : exists b, worked ex_start b /\ bi_would_block b = true /\
    exists b', bi_execute b = (b', Ok tt, None) /\
    rd_data (bi_rd b) = [x02] /\ rb_content (bi_rbuf b) = [x00] /\ wb_content (bi_wbuf b) = [x01] /\
    rb_content (bi_rbuf b') = [x00; x02] /\ wr_data (bi_wr b') = [x00; x01]).
  { eexists. split.
    - eapply worked_io; [eapply worked_write with (data := [x00; x01])|].
      + eapply worked_decode with (D := decoder (CU NU16be)) (fuel := 9) (s := dec_fresh (CU NU16be)).
        * eapply worked_io; [apply worked_new|vm_compute; reflexivity].
        * intros e s1 n H. vm_compute in H. inversion H. vm_compute. lia.
        * vm_compute. reflexivity.
      + vm_compute. reflexivity.
      + vm_compute. reflexivity.
    - split; [vm_compute; reflexivity|]. eexists. split; [vm_compute; reflexivity|]. vm_compute. auto 10. }
  destruct X as (b & H1 & H2 & b' & H3). exists b, b'. auto.
Qed.

(** [would_block] says nothing about the bytes that have already arrived: after one of two messages was received it is true although
    the other one is complete in the read buffer.  A program that sleeps now does not answer it. *)
Theorem C102_arrived_refuted : exists b b',
  worked (bi_new (mkReader [x00; x01; x00; x02] [RdSome 3; RdErr IoWouldBlock]) (mkWriter [] []) 8 8) b /\ bi_would_block b = true /\
  worked (bi_new (mkReader [x00; x01; x00; x02] [RdSome 3; RdErr IoWouldBlock]) (mkWriter [] []) 8 8) b' /\ bi_would_block b' = true /\
  (exists s s', decode_from_read_buf (decoder (CU NU16be)) 9 (dec_fresh (CU NU16be)) (bi_rbuf b) = (s, bi_rbuf b', Ok tt) /\
     dec_finish (decoder (CU NU16be)) s = (s', Ok 1%N) /\
     exists s2 rb2, decode_from_read_buf (decoder (CU NU16be)) 9 s' (bi_rbuf b') = (s2, rb2, Ok tt) /\
       snd (dec_finish (decoder (CU NU16be)) s2) = Ok 2%N).
Proof.
  assert (X : exists b, worked (bi_new (mkReader [x00; x01; x00; x02] [RdSome 3; RdErr IoWouldBlock]) (mkWriter [] []) 8 8) b /\
    bi_would_block b = true /\ exists b',
    worked (bi_new (mkReader [x00; x01; x00; x02] [RdSome 3; RdErr IoWouldBlock]) (mkWriter [] []) 8 8) b' /\ bi_would_block b' = true /\
    exists s s', decode_from_read_buf (decoder (CU NU16be)) 9 (dec_fresh (CU NU16be)) (bi_rbuf b) = (s, bi_rbuf b', Ok tt) /\
     dec_finish (decoder (CU NU16be)) s = (s', Ok 1%N) /\
     exists s2 rb2, decode_from_read_buf (decoder (CU NU16be)) 9 s' (bi_rbuf b') = (s2, rb2, Ok tt) /\
       snd (dec_finish (decoder (CU NU16be)) s2) = Ok 2%N).
  { eexists. split; [eapply worked_io; [apply worked_new|vm_compute; reflexivity]|]. split; [vm_compute; reflexivity|].
    eexists. split.
    - eapply worked_decode with (D := decoder (CU NU16be)) (fuel := 9) (s := dec_fresh (CU NU16be)).
      + eapply worked_io; [apply worked_new|vm_compute; reflexivity].
      + intros e s1 n H. vm_compute in H. inversion H. vm_compute. lia.
      + vm_compute. reflexivity.
    - split; [vm_compute; reflexivity|]. do 2 eexists. split; [vm_compute; reflexivity|]. split; [vm_compute; reflexivity|].
      do 2 eexists. split; [vm_compute; reflexivity|]. vm_compute. reflexivity. }
  destruct X as (b & H1 & H2 & b' & H3 & H4 & H5). exists b, b'. auto 10.
Qed.
Print Assumptions C102_arrived_refuted.
