(** * Theorems about requests and replies over [BufferedIo]: C93. *)
From Coq Require Import Lia ZifyBool ZifyNat ZifyN.
From Verif Require Import Rpc RpcProofs DuplexProofs Link LinkProofs IoProofs Props_Link Universe Examples Lib Props_Io.
Set Implicit Arguments.

Section Runs.
Context {R Sa Sb Ta Tb A B : Type}.
Variables (EA : Encoder Sa A) (DA : Decoder Ta A) (EB : Encoder Sb B) (DB : Decoder Tb B) (fuel : nat).
Variables (serve : R -> A -> R * B) (window : nat) (reqs : list A) (r0 : R).
Variables (wire1 : list byte -> A -> Prop) (wire2 : list byte -> B -> Prop).
Variables (J1 : list A -> nat -> link Sa Ta A -> Prop) (J2 : list B -> nat -> link Sb Tb B -> Prop).
Hypothesis (F1 : flow EA DA fuel wire1 J1).
Hypothesis (F2 : flow EB DB fuel wire2 J2).
Variables (N1 N2 : nat).
Hypothesis (B1 : (N.of_nat N1 <= u64_max)%N).
Hypothesis (B2 : (N.of_nat N2 <= u64_max)%N).
Hypothesis (PW : 0 < window).
Notation rpc := (rpc R Sa Sb Ta Tb A B).
Notation rinv := (@rinv R Sa Sb Ta Tb A B serve window reqs r0 wire1 wire2 J1 J2 N1 N2).
Notation rstep := (@rstep R Sa Sb Ta Tb A B EA DA EB DB fuel serve window reqs).
Notation rruns := (@rruns R Sa Sb Ta Tb A B EA DA EB DB fuel serve window reqs).

Lemma step_rinv : forall tot n rp wp who n' x, rinv tot n -> rstep n rp wp who n' x ->
  (x = Ok tt \/ io_error rp wp x) /\
  exists tot', rinv tot' n' /\ tot' <= tot /\
    (tot' = tot -> still EA EB n n' /\
       (willing (if who then p_back n else p_out n) rp wp ->
        if who then cstuck EA window n' else sstuck EB n')).
Proof.
  intros tot n rp wp who n' x IV H. destruct H as [polled me sent back out x H M EO|polled me r back out x H M EO].
  - eapply client_step; eauto.
  - eapply server_step; eauto.
Qed.

Definition going (h t : bool) (k : nat) (n : rpc) : Prop :=
  exists tot, rinv tot n /\
    (d_got (p_client n) = replies serve r0 reqs \/
     exists m, tot <= m /\ m + k <= N1 + N2 /\
       (tot = m -> (h = true -> cstuck EA window n) /\ (t = true -> sstuck EB n))).

Lemma got_bound : forall tot n, rinv tot n -> exists rest, replies serve r0 reqs = d_got (p_client n) ++ rest.
Proof.
  intros tot n (st1 & ws1 & n1 & pend & st2 & ws2 & n2 & H1 & H2 & RQ & SP & SN & _ & _ & RP & _).
  destruct (lv_prefix (fl_lively F2 st2) _ _ H2) as (p2 & G2). cbn in G2.
  rewrite RQ, SP, <- app_assoc, replies_app, RP, G2, <- !app_assoc. eauto.
Qed.
Lemma got_keeps : forall tot tot' n n' news, rinv tot n -> rinv tot' n' ->
  d_got (p_client n) = replies serve r0 reqs -> d_got (p_client n') = d_got (p_client n) ++ news ->
  d_got (p_client n') = replies serve r0 reqs.
Proof.
  intros tot tot' n n' news IV IV' G GN. destruct (got_bound IV') as (rest & Q). rewrite GN, G in *.
  apply (f_equal (@length _)) in Q. rewrite !app_length in Q. destruct news; [apply app_nil_r|cbn in Q; lia].
Qed.

Lemma step_got : forall n rp wp who n' x, rstep n rp wp who n' x ->
  exists news, d_got (p_client n') = d_got (p_client n) ++ news.
Proof.
  intros n rp wp who n' x H. destruct H as [polled me sent back out x H _ _|]; [|exists []; cbn; now rewrite app_nil_r].
  cbn. unfold client_turn in H. destruct (do_io _ _ _ _ _ _ _) as [[[[rb1 wb1] back1] out1] x1].
  destruct x1 as [u|k| |]; try (injection H as <- <- <- <- <-; exists []; cbn; now rewrite app_nil_r).
  destruct (take_in _ _ _ _ _) as [[[rb2 s2] got2] x2] eqn:TI.
  assert (Q : exists news, got2 = d_got (p_client n) ++ news).
  { destruct (take_in_one _ _ _ _ _ TI) as [->|(i & ->)]; [exists []; now rewrite app_nil_r|eauto]. }
  destruct x2 as [u2|k| |]; try (injection H as <- <- <- <- <-; exact Q).
  destruct (_ <? window).
  - destruct (put_out _ _ _ _ _) as [[[t3 e3] wb3] x3]. injection H as <- <- <- <- <-. exact Q.
  - destruct (encode_to_write_buf _ _ _ _) as [[e3 wb3] x3]. injection H as <- <- <- <- <-. exact Q.
Qed.

Lemma step_going : forall h t k n rp wp who n' x, going h t k n -> rstep n rp wp who n' x ->
  going h t k n' /\
  (willing (if who then p_back n else p_out n) rp wp -> going (h || who) (t || negb who) k n').
Proof.
  intros h t k n rp wp who n' x (tot & IV & G) H. destruct (step_rinv IV H) as (_ & tot' & IV' & LE & Q).
  assert (K : forall b : bool, (b = true -> willing (if who then p_back n else p_out n) rp wp) ->
            going (h || (b && who)) (t || (b && negb who)) k n').
  { intros b W. exists tot'. split; [exact IV'|]. destruct G as [G|(m & L & M & STK)].
    - left. destruct (step_got H) as (news & GN). eapply got_keeps; [exact IV|exact IV'|exact G|exact GN].
    - right. exists m. split; [lia|]. split; [exact M|]. intros X.
      destruct (Q ltac:(lia)) as [SL WS]. destruct (STK ltac:(lia)) as [S1 S2]. split; intros Z; apply orb_prop in Z as [Z|Z].
      + eapply cstuck_still; eauto.
      + apply andb_prop in Z as [Z1 Z2]. destruct who; [|discriminate]. apply WS, W, Z1.
      + eapply sstuck_still; eauto.
      + apply andb_prop in Z as [Z1 Z2]. destruct who; [discriminate|]. apply WS, W, Z1. }
  split.
  - specialize (K false). cbn in K. rewrite !orb_false_r in K. apply K. discriminate.
  - intros W. exact (K true (fun _ => W)).
Qed.
Lemma runs_going : forall n0, going false false 0 n0 -> forall h t k n, rruns n0 h t k n -> going h t k n.
Proof.
  intros n0 G0 h t k n H.
  induction H as [|h t k n rp wp who n' x H IH ST|h t k n rp wp n' x H IH ST W|h t k n rp wp n' x H IH ST W|k n H IH].
  - exact G0.
  - eapply (step_going IH ST).
  - destruct (step_going IH ST) as [_ K]. specialize (K W). cbn in K. rewrite orb_true_r, orb_false_r in K. exact K.
  - destruct (step_going IH ST) as [_ K]. specialize (K W). cbn in K. rewrite orb_true_r, orb_false_r in K. exact K.
  - destruct IH as (tot & IV & [G|(m & L & M & STK)]); exists tot; (split; [exact IV|]); [left; exact G|].
    destruct (Nat.eq_dec tot m) as [Q|Q].
    + left. destruct (STK Q) as [S1 S2]. exact (stuck_done F1 F2 B1 B2 PW IV (S1 eq_refl) (S2 eq_refl)).
    + right. exists (Nat.pred m). split; [lia|]. split; [lia|]. intros _. split; discriminate.
Qed.
End Runs.

(** Client and server are new, nothing is on its way. *)
Definition fresh_rpc {R A B} (cA : codec A) (cB : codec B) (reqs : list A) (r0 : R) (w1 r1 w2 r2 : list byte) :=
  mkRpc (mkSide reqs (enc_fresh cA) (wb_new w1) (rb_new r1) (dec_fresh cB) (@nil B)) 0
        (mkSide (@nil B) (enc_fresh cB) (wb_new w2) (rb_new r2) (dec_fresh cA) (@nil A)) r0 [] [].

Lemma Forall2_length' : forall X Y (P : X -> Y -> Prop) l l', Forall2 P l l' -> length l = length l'.
Proof. induction 1; cbn; auto. Qed.
Lemma rpc_start : forall R A B (cA : codec A) (cB : codec B) (serve : R -> A -> R * B) r0 window reqs wsA wsB w1 r1 w2 r2,
  messages cA wsA reqs -> messages cB wsB (replies serve r0 reqs) ->
  (N.of_nat (4 * length (concat wsA) + 2 * length reqs) <= u64_max)%N ->
  (N.of_nat (4 * length (concat wsB) + 2 * length reqs) <= u64_max)%N ->
  w1 <> [] -> r1 <> [] -> w2 <> [] -> r2 <> [] ->
  exists f0, forall fuel, f0 < fuel ->
  exists wire1 wire2 J1 J2,
    flow (encoder cA) (decoder cA) fuel wire1 J1 /\ flow (encoder cB) (decoder cB) fuel wire2 J2 /\
    going (encoder cA) (encoder cB) serve window reqs r0 wire1 wire2 J1 J2
      (4 * length (concat wsA) + 2 * length reqs) (4 * length (concat wsB) + 2 * length reqs)
      false false 0 (fresh_rpc cA cB reqs r0 w1 r1 w2 r2).
Proof.
  intros R A B cA cB serve r0 window reqs wsA wsB w1 r1 w2 r2 MA MB LA LB NW1 NR1 NW2 NR2.
  destruct (flow_start MA NW1 NR2) as (f1 & K1). destruct (flow_start MB NW2 NR1) as (f2 & K2).
  exists (f1 + f2). intros fuel LF.
  destruct (K1 fuel ltac:(lia)) as (wire1 & J1 & F1 & HW1 & I1). destruct (K2 fuel ltac:(lia)) as (wire2 & J2 & F2 & HW2 & I2).
  exists wire1, wire2, J1, J2. split; [exact F1|]. split; [exact F2|].
  pose proof (Forall2_length' HW1) as E1. pose proof (Forall2_length' HW2) as E2. rewrite replies_length in E2.
  assert (C1 : cost wsA = 4 * length (concat wsA) + 2 * length reqs) by (unfold cost; lia).
  assert (C2 : cost wsB = 4 * length (concat wsB) + 2 * length reqs) by (unfold cost; lia).
  exists (cost wsA + cost wsB). split.
  - exists [], wsA, 0, [], [], wsB, 0. cbn [fresh_rpc p_client p_sent p_server p_state p_out p_back d_todo d_enc d_wbuf d_rbuf d_dec d_got app].
    split; [exact I1|]. split; [exact I2|]. do 3 (split; [reflexivity|]). split; [exact HW1|]. split; [lia|].
    do 2 (split; [reflexivity|]). split; [exact HW2|]. split; [lia|]. split; [discriminate|]. split; [discriminate|]. split; [cbn; lia|lia].
  - right. exists (cost wsA + cost wsB). split; [lia|]. split; [lia|]. intros _. split; discriminate.
Qed.

(** ** C93: every request is answered

    Whatever the order of the turns and whatever the connection does: the server receives the requests in order,
    the client receives the replies to them in order; a reply is never received before its request has been, nor a
    request before it was sent, and no more than [window] requests are unanswered; at most [window] replies wait in
    the server; every turn succeeds, unless the connection itself fails; and after the given number of rounds the
    client has the replies to all its requests. *)
Theorem C93_answers : forall R A B (cA : codec A) (cB : codec B) (serve : R -> A -> R * B) r0 window reqs wsA wsB w1 r1 w2 r2,
  messages cA wsA reqs -> messages cB wsB (replies serve r0 reqs) ->
  (N.of_nat (4 * length (concat wsA) + 2 * length reqs) <= u64_max)%N ->
  (N.of_nat (4 * length (concat wsB) + 2 * length reqs) <= u64_max)%N ->
  0 < window -> w1 <> [] -> r1 <> [] -> w2 <> [] -> r2 <> [] ->
  exists f0, forall fuel, f0 < fuel -> forall h t k n,
  rruns (encoder cA) (decoder cA) (encoder cB) (decoder cB) fuel serve window reqs
        (fresh_rpc cA cB reqs r0 w1 r1 w2 r2) h t k n ->
    (exists rest, reqs = d_got (p_server n) ++ rest) /\
    (exists rest, replies serve r0 reqs = d_got (p_client n) ++ rest) /\
    length (d_got (p_client n)) <= length (d_got (p_server n)) <= p_sent n /\
    p_sent n <= length (d_got (p_client n)) + window /\
    length (d_todo (p_server n)) <= window /\
    (forall rp wp who n' x,
       rstep (encoder cA) (decoder cA) (encoder cB) (decoder cB) fuel serve window reqs n rp wp who n' x ->
       x = Ok tt \/ io_error rp wp x) /\
    (4 * length (concat wsA) + 4 * length (concat wsB) + 4 * length reqs < k ->
     d_got (p_client n) = replies serve r0 reqs).
Proof.
  intros R A B cA cB serve r0 window reqs wsA wsB w1 r1 w2 r2 MA MB LA LB PW NW1 NR1 NW2 NR2.
  destruct (@rpc_start _ _ _ _ _ serve r0 window _ _ _ _ _ _ _ MA MB LA LB NW1 NR1 NW2 NR2) as (f0 & K).
  exists f0. intros fuel LF h t k n H. destruct (K fuel LF) as (wire1 & wire2 & J1 & J2 & F1 & F2 & G0).
  pose proof (runs_going F1 F2 LA LB PW G0 H) as G. pose proof G as (tot & IV & P).
  pose proof (got_bound F2 IV) as GB.
  pose proof IV as (st1 & ws1 & n1 & pend & st2 & ws2 & n2 & H1 & H2 & RQ & SP & SN & _ & _ & RP & _ & _ & _ & _ & _ & WI & _).
  destruct (lv_prefix (fl_lively F2 st2) _ _ H2) as (p2 & G2). cbn in G2.
  pose proof (replies_length serve (d_got (p_server n)) r0) as RL. rewrite RP, G2, !app_length in RL.
  split; [rewrite RQ, SP, <- app_assoc; eauto|]. split; [exact GB|].
  assert (S1 : length (d_got (p_server n)) <= p_sent n) by (rewrite SN, SP, app_length; lia).
  split; [lia|]. split; [exact WI|]. split; [lia|].
  split; [intros rp wp who n' x ST; apply (step_rinv F1 F2 LA LB PW IV ST)|].
  intros LK. destruct P as [P|(m & _ & M & _)]; [exact P|lia].
Qed.
Print Assumptions C93_answers.

Lemma polite_may : forall polled back, may polled (polite back) polite_w /\ willing back (polite back) polite_w.
Proof.
  intros polled back. split.
  - split; [cbn; intuition discriminate|]. intros _. split; [destruct back|]; cbn; intuition discriminate.
  - split; [|split; [|exact I]].
    + intros e [X|X]; [destruct back|]; cbn in X; intuition congruence.
    + intros N. destruct back; [congruence|exact I].
Qed.
Lemma polite_state : forall polled rb wb back out rb' wb' back' out' x, rb_ok rb ->
  do_io polled rb wb back out (polite back) polite_w = (rb', wb', back', out', x) ->
  rb_state rb' = StEos -> rb_state rb = StEos /\ back' = back.
Proof.
  intros polled rb wb back out rb' wb' back' out' x OK H Q.
  destruct (do_io_parts _ _ _ _ _ _ H) as (rd & x1 & FI & RD & _); [apply (polite_may polled back)|].
  destruct (@polite_fill _ _ _ _ _ OK FI Q) as [a b]. split; [exact a|congruence].
Qed.

(** From every state that can be reached the rounds can go on. *)
Theorem C93_goes_on : forall R A B (cA : codec A) (cB : codec B) (serve : R -> A -> R * B) r0 window reqs wsA wsB w1 r1 w2 r2,
  messages cA wsA reqs -> messages cB wsB (replies serve r0 reqs) ->
  (N.of_nat (4 * length (concat wsA) + 2 * length reqs) <= u64_max)%N ->
  (N.of_nat (4 * length (concat wsB) + 2 * length reqs) <= u64_max)%N ->
  0 < window -> w1 <> [] -> r1 <> [] -> w2 <> [] -> r2 <> [] ->
  exists f0, forall fuel, f0 < fuel -> forall h t k n,
  rruns (encoder cA) (decoder cA) (encoder cB) (decoder cB) fuel serve window reqs
        (fresh_rpc cA cB reqs r0 w1 r1 w2 r2) h t k n ->
    forall who, exists rp wp n',
      rstep (encoder cA) (decoder cA) (encoder cB) (decoder cB) fuel serve window reqs n rp wp who n' (Ok tt) /\
      willing (if who then p_back n else p_out n) rp wp.
Proof.
  intros R A B cA cB serve r0 window reqs wsA wsB w1 r1 w2 r2 MA MB LA LB PW NW1 NR1 NW2 NR2.
  destruct (@rpc_start _ _ _ _ _ serve r0 window _ _ _ _ _ _ _ MA MB LA LB NW1 NR1 NW2 NR2) as (f0 & K).
  exists f0. intros fuel LF h t k n H. destruct (K fuel LF) as (wire1 & wire2 & J1 & J2 & F1 & F2 & G0).
  pose proof (runs_going F1 F2 LA LB PW G0 H) as (tot & IV & _).
  pose proof IV as (st1 & ws1 & n1 & pend & st2 & ws2 & n2 & H1 & H2 & _ & _ & _ & _ & _ & _ & _ & _ & _ & EO1 & EO2 & _ & _).
  assert (NE : forall back r, io_error (polite back) polite_w r -> False).
  { intros back r (e & N & [X|X] & _); [destruct back|]; cbn in X; intuition congruence. }
  intros [|].
  - destruct (client_turn (encoder cA) (decoder cB) fuel false window (p_sent n) (p_client n) (p_back n) (p_out n)
                (polite (p_back n)) polite_w) as [[[[me sent] back] out] x] eqn:X.
    assert (SP : rstep (encoder cA) (decoder cA) (encoder cB) (decoder cB) fuel serve window reqs n (polite (p_back n)) polite_w true
                   (mkRpc me sent (p_server n) (p_state n) out back) x).
    { econstructor; [exact X|apply polite_may|]. intros Q.
      assert (Z : rb_state (d_rbuf (p_client n)) = StEos /\ back = p_back n).
      { unfold client_turn in X. destruct (do_io _ _ _ _ _ _ _) as [[[[rb1 wb1] back1] out1] x1] eqn:IO.
        assert (Z : back = back1 /\ rb_state (d_rbuf me) = rb_state rb1).
        { destruct x1 as [u|e| |]; try (injection X as <- <- <- <- <-; auto).
          destruct (take_in _ _ _ _ _) as [[[rb2 s2] got2] x2] eqn:TI.
          pose proof (@take_in_state _ _ _ _ _ _ _ _ _ _ _ TI).
          destruct x2 as [u2|e| |]; try (injection X as <- <- <- <- <-; auto).
          destruct (_ <? window).
          - destruct (put_out _ _ _ _ _) as [[[t3 e3] wb3] x3]. injection X as <- <- <- <- <-. auto.
          - destruct (encode_to_write_buf _ _ _ _) as [[e3 wb3] x3]. injection X as <- <- <- <- <-. auto. }
        destruct Z as [-> Z]. rewrite Z in Q.
        apply (polite_state _ _ _ _ (lv_rb (fl_lively F2 st2) H2) IO Q). }
      destruct Z as [Z ->]. destruct (EO2 Z) as [a b]. destruct (lv_eos (fl_lively F2 st2) _ _ H2 Z) as (_ & c & d & f). auto. }
    destruct (proj1 (step_rinv F1 F2 LA LB PW IV SP)) as [->|Z]; [|destruct (NE _ _ Z)].
    do 3 eexists. split; [exact SP|]. apply (polite_may false).
  - destruct (server_turn (encoder cB) (decoder cA) fuel false serve (p_state n) (p_server n) (p_out n) (p_back n)
                (polite (p_out n)) polite_w) as [[[[me r] out] back] x] eqn:X.
    assert (SP : rstep (encoder cA) (decoder cA) (encoder cB) (decoder cB) fuel serve window reqs n (polite (p_out n)) polite_w false
                   (mkRpc (p_client n) (p_sent n) me r out back) x).
    { econstructor; [exact X|apply polite_may|]. intros Q.
      assert (Z : rb_state (d_rbuf (p_server n)) = StEos /\ out = p_out n).
      { unfold server_turn in X. destruct (do_io _ _ _ _ _ _ _) as [[[[rb1 wb1] back1] out1] x1] eqn:IO.
        assert (Z : out = back1 /\ rb_state (d_rbuf me) = rb_state rb1).
        { destruct x1 as [u|e| |]; try (injection X as <- <- <- <- <-; auto).
          destruct (take_in _ _ _ _ _) as [[[rb2 s2] got2] x2] eqn:TI.
          pose proof (@take_in_state _ _ _ _ _ _ _ _ _ _ _ TI).
          destruct x2 as [u2|e| |]; try (injection X as <- <- <- <- <-; auto).
          destruct (match skipn _ got2 with [] => _ | _ :: _ => _ end) as [r3 todo3].
          destruct (put_out _ _ _ _ _) as [[[t3 e3] wb3] x3]. injection X as <- <- <- <- <-. auto. }
        destruct Z as [-> Z]. rewrite Z in Q.
        apply (polite_state _ _ _ _ (lv_rb (fl_lively F1 st1) H1) IO Q). }
      destruct Z as [Z ->]. destruct (lv_eos (fl_lively F1 st1) _ _ H1 Z) as (_ & c & d & f). auto. }
    destruct (proj1 (step_rinv F1 F2 LA LB PW IV SP)) as [->|Z]; [|destruct (NE _ _ Z)].
    do 3 eexists. split; [exact SP|]. apply (polite_may false).
Qed.
Print Assumptions C93_goes_on.

(** ** The hypotheses are met: two requests and their replies (the number of the reply and the value of the
    request), one request at a time, buffers of 2 and 3 bytes, one byte per turn *)
Fixpoint rplay {R A B} (cA : codec A) (cB : codec B) (serve : R -> A -> R * B) (window fuel k : nat) n :=
  match k with
  | 0 => n
  | S k' =>
      let '(me, sent, back, out, _) :=
        client_turn (encoder cA) (decoder cB) fuel (Nat.even k) window (p_sent n) (p_client n) (p_back n) (p_out n)
          (polite (p_back n)) polite_w in
      let '(srv, r, out, back, _) :=
        server_turn (encoder cB) (decoder cA) fuel false serve (p_state n) (p_server n) out back (polite out) polite_w in
      rplay cA cB serve window fuel k' (mkRpc me sent srv r out back)
  end.
Definition ex_serve (r : N) (req : N * list byte) : N * (N * list byte) := ((r + 1)%N, (r, snd req)).
Example C93_example :
  let reqs := [ex_tlv_item; (8%N, [])] in
  let n0 := fresh_rpc ex_tlv ex_tlv reqs 7%N [x00; x00] [x00; x00; x00] [x00; x00] [x00; x00; x00] in
  let seen n := (d_got (p_server n), p_sent n, d_got (p_client n)) in
  messages ex_tlv [ex_tlv_bytes; [x08; x00; x00]] reqs /\
  replies ex_serve 7%N reqs = reqs /\
  seen (rplay ex_tlv ex_tlv ex_serve 1 100 8 n0) = ([ex_tlv_item], 1, []) /\
  seen (rplay ex_tlv ex_tlv ex_serve 1 100 30 n0) = (reqs, 2, reqs) /\
  (* without a window nothing is ever sent *)
  seen (rplay ex_tlv ex_tlv ex_serve 0 100 30 n0) = ([], 0, []).
Proof. split; [apply C46_example|]. split; [reflexivity|]. split; [|split]; vm_compute; reflexivity. Qed.
