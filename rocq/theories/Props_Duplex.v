(** * Theorems about two peers that talk over [BufferedIo]: C92. *)
From Coq Require Import Lia ZifyBool ZifyNat ZifyN.
From Verif Require Import Duplex DuplexProofs Link LinkProofs IoProofs Props_Link Universe Examples Lib.
Set Implicit Arguments.

(** Both peers are new, nothing is on its way. *)
Definition fresh_net {A B} (cA : codec A) (cB : codec B) (itA : list A) (itB : list B) (w1 r1 w2 r2 : list byte) :=
  mkNet (mkSide itA (enc_fresh cA) (wb_new w1) (rb_new r1) (dec_fresh cB) [])
        (mkSide itB (enc_fresh cB) (wb_new w2) (rb_new r2) (dec_fresh cA) []) [] [].

Section Both.
Context {Sa Sb Ta Tb A B : Type}.
Variables (EA : Encoder Sa A) (DA : Decoder Ta A) (EB : Encoder Sb B) (DB : Decoder Tb B) (fuel : nat).
Variables (itA : list A) (itB : list B) (J1 : nat -> link Sa Ta A -> Prop) (J2 : nat -> link Sb Tb B -> Prop).
Hypothesis (L1 : lively EA DA fuel itA J1).
Hypothesis (L2 : lively EB DB fuel itB J2).
Variables (N1 N2 : nat).

(** One direction, after [k] rounds: all has arrived, or the measure has decreased in every round. *)
Definition goes {Se Sd I} (E : Encoder Se I) (items : list I) (N k n : nat) (s r : bool) (l : link Se Sd I) : Prop :=
  l_got l = items \/
  exists m, n <= m /\ m + k <= N /\
    (n = m -> (s = true -> l_todo l = [] /\ enc_idle E (l_enc l) = true /\ wb_content (l_wbuf l) = []) /\
              (r = true -> rb_content (l_rbuf l) = [] /\ l_stream l = [])).

Lemma goes_step : forall Se Sd I (E : Encoder Se I) (D : Decoder Sd I) items J N k n s r l n' l' (b1 b2 : bool),
  lively E D fuel items J -> goes E items N k n s r l -> adv E J n l n' l' ->
  (b1 = true -> n' = n -> l_todo l = [] /\ enc_idle E (l_enc l) = true /\ wb_content (l_wbuf l) = []) ->
  (b2 = true -> n' = n -> rb_content (l_rbuf l) = [] /\ l_stream l = []) ->
  goes E items N k n' (s || b1) (r || b2) l'.
Proof.
  intros Se Sd I E D items J N k n s r l n' l' b1 b2 LV [G|(m & L & M & Q)] (Jn' & LE & SM & (news & GN & _)) H1 H2.
  - left. destruct (lv_prefix LV _ _ Jn') as (pend & P). rewrite GN, G, <- app_assoc in P.
    assert (NE : news = []).
    { apply (f_equal (@length _)) in P. rewrite !app_length in P. destruct news; auto. cbn in P. lia. }
    rewrite GN, G, NE. apply app_nil_r.
  - right. exists m. split; [lia|]. split; [exact M|]. intros X. assert (Y : n' = n) by lia.
    destruct (SM Y) as (a & b & c & d & e). rewrite a, b, c, d, e. destruct (Q ltac:(lia)) as [Q1 Q2].
    split; intros Z; apply orb_prop in Z as [Z|Z]; auto.
Qed.
Lemma goes_round : forall Se Sd I (E : Encoder Se I) (D : Decoder Sd I) items J N k n l,
  lively E D fuel items J -> J n l -> goes E items N k n true true l -> goes E items N (S k) n false false l.
Proof.
  intros Se Sd I E D items J N k n l LV Jn [G|(m & L & M & Q)]; [left; exact G|].
  destruct (Nat.eq_dec n m) as [X|X].
  - left. destruct (Q X) as [Q1 Q2]. destruct (Q1 eq_refl) as (a & b & c), (Q2 eq_refl) as (d & e).
    eapply (lv_done LV); eauto.
  - right. exists n. split; [lia|]. split; [lia|]. intros _. split; discriminate.
Qed.

Definition link1 (n : net Sa Sb Ta Tb A B) := out_link (n_here n) (n_out n) (n_there n).
Definition link2 (n : net Sa Sb Ta Tb A B) := out_link (n_there n) (n_back n) (n_here n).
Definition both (h t : bool) (k : nat) (n : net Sa Sb Ta Tb A B) : Prop :=
  exists n1 n2, J1 n1 (link1 n) /\ J2 n2 (link2 n) /\
    goes EA itA N1 k n1 h t (link1 n) /\ goes EB itB N2 k n2 t h (link2 n).

Lemma step_both : forall h t k n rp wp who n' r, both h t k n -> step EA DA EB DB fuel n rp wp who n' r ->
  (r = Ok tt \/ io_error rp wp r) /\
  both h t k n' /\
  (willing (if who then n_back n else n_out n) rp wp -> both (h || who) (t || negb who) k n').
Proof.
  intros h t k n rp wp who n' r (n1 & n2 & A1 & A2 & G1 & G2) H.
  assert (K : (r = Ok tt \/ io_error rp wp r) /\
    forall b : bool, (b = true -> willing (if who then n_back n else n_out n) rp wp) ->
      both (h || (b && who)) (t || (b && negb who)) k n').
  { destruct H as [polled me back out r X LG|polled me back out r X LG].
    - destruct (@turn_adv _ _ _ _ _ _ _ _ _ _ _ _ _ _ _ L1 L2 _ _ _ _ _ _ _ _ _ _ _ _ _ A1 A2 X LG) as (RO & m1 & m2 & AD1 & AD2 & Q1 & Q2). split; [exact RO|].
      intros b W. exists m1, m2. split; [exact (proj1 AD1)|]. split; [exact (proj1 AD2)|]. rewrite !andb_false_r, !andb_true_r.
      split; [eapply goes_step; [exact L1|exact G1|exact AD1| |]|eapply goes_step; [exact L2|exact G2|exact AD2| |]];
        try discriminate; intros Z; specialize (W Z); auto.
    - destruct (@turn_adv _ _ _ _ _ _ _ _ _ _ _ _ _ _ _ L2 L1 _ _ _ _ _ _ _ _ _ _ _ _ _ A2 A1 X LG) as (RO & m2 & m1 & AD2 & AD1 & Q2 & Q1). split; [exact RO|].
      intros b W. exists m1, m2. split; [exact (proj1 AD1)|]. split; [exact (proj1 AD2)|]. rewrite !andb_false_r, !andb_true_r.
      split; [eapply goes_step; [exact L1|exact G1|exact AD1| |]|eapply goes_step; [exact L2|exact G2|exact AD2| |]];
        try discriminate; intros Z; specialize (W Z); auto. }
  destruct K as [RO K]. split; [exact RO|]. split.
  - specialize (K false). cbn in K. rewrite !orb_false_r in K. apply K. discriminate.
  - intros W. exact (K true (fun _ => W)).
Qed.
Lemma round_both : forall k n, both true true k n -> both false false (S k) n.
Proof. intros k n (n1 & n2 & A1 & A2 & G1 & G2). exists n1, n2. repeat (split; [assumption|]). split; eapply goes_round; eauto. Qed.
Lemma runs_both : forall n0, both false false 0 n0 -> forall h t k n, runs EA DA EB DB fuel n0 h t k n -> both h t k n.
Proof.
  intros n0 B0 h t k n H.
  induction H as [|h t k n rp wp who n' r H IH ST|h k n rp wp n' r H IH ST W|t k n rp wp n' r H IH ST W
                 |h k n rp wp n' r H IH ST W|t k n rp wp n' r H IH ST W].
  - exact B0.
  - eapply (step_both IH ST).
  - destruct (step_both IH ST) as (_ & _ & K). specialize (K W). rewrite orb_true_r in K. exact K.
  - destruct (step_both IH ST) as (_ & _ & K). specialize (K W). rewrite orb_true_r in K. exact K.
  - apply round_both. destruct (step_both IH ST) as (_ & _ & K). specialize (K W). rewrite orb_true_r in K. exact K.
  - apply round_both. destruct (step_both IH ST) as (_ & _ & K). specialize (K W). rewrite orb_true_r in K. exact K.
Qed.
Lemma polite_legal : forall (me : side Sa Tb A B) (other : side Sb Ta B A) back out me' back' out' r n2 polled,
  J2 n2 (out_link other back me) ->
  turn EA DB fuel polled me back out (polite back) polite_w = (me', back', out', r) ->
  legal EB polled other (polite back) polite_w (d_rbuf me') back' /\ willing back (polite back) polite_w.
Proof.
  intros me other back out me' back' out' r n2 polled Ji H. unfold turn in H.
  destruct (do_io polled (d_rbuf me) (d_wbuf me) back out (polite back) polite_w) as [[[[rb1 wb1] back1] out1] x] eqn:IO.
  assert (PL : polled = true -> ~ In (Some (RdErr IoWouldBlock)) (polite back) /\ ~ In (Some (WrErr IoWouldBlock)) polite_w).
  { intros _. split; [destruct back|]; cbn; intuition discriminate. }
  destruct (do_io_parts _ _ _ _ _ _ IO PL) as (rd & x1 & FI & RD & _).
  assert (BK : back' = back1 /\ rb_state (d_rbuf me') = rb_state rb1).
  { destruct x as [u|k| |]; try (injection H as <- <- <- <-; auto).
    destruct (take_in DB fuel rb1 (d_dec me) (d_got me)) as [[[rb2 s2] got2] x2] eqn:TI.
    pose proof (@take_in_state _ _ _ _ _ _ _ _ _ _ _ TI).
    destruct x2 as [u2|k| |]; try (injection H as <- <- <- <-; auto).
    destruct (put_out EA fuel (d_todo me) (d_enc me) wb1) as [[[t3 e3] wb3] x3]. injection H as <- <- <- <-. auto. }
  destruct BK as (-> & ST). split; [split; [|split; [exact PL|]]|].
  - cbn. intuition discriminate.
  - intros Q. rewrite ST in Q. destruct (@polite_fill _ _ _ _ _ (lv_rb L2 Ji) FI Q) as [RS BD].
    destruct (lv_eos L2 _ _ Ji RS) as (a & b & c & d). cbn in a, b, c, d. repeat split; auto. congruence.
  - split; [|split; [|exact I]].
    + intros e [X|X]; [destruct back|]; cbn in X; intuition congruence.
    + intros N. destruct back; [congruence|exact I].
Qed.
End Both.

(** ** C92: two peers that keep taking turns exchange everything

    Whatever the order of the turns and whatever the connection does (any mixture of [execute_io] and
    [execute_io_poll]): what each peer has received is the beginning of what the other one sends; every turn
    succeeds, unless the connection itself fails, and then the error is that of the connection; and after
    the given number of rounds everything has arrived, in both directions.  A round is one turn of each peer
    in which the connection gave or took at least one byte if there was one; there may be any number of other
    turns in between. *)
Theorem C92_delivers : forall A B (cA : codec A) (cB : codec B) wsA itA wsB itB w1 r1 w2 r2,
  messages cA wsA itA -> messages cB wsB itB ->
  w1 <> [] -> r1 <> [] -> w2 <> [] -> r2 <> [] ->
  exists f0, forall fuel, f0 < fuel -> forall h t k n,
  runs (encoder cA) (decoder cA) (encoder cB) (decoder cB) fuel (fresh_net cA cB itA itB w1 r1 w2 r2) h t k n ->
    (exists rest, itA = d_got (n_there n) ++ rest) /\ (exists rest, itB = d_got (n_here n) ++ rest) /\
    (forall rp wp who n' r, step (encoder cA) (decoder cA) (encoder cB) (decoder cB) fuel n rp wp who n' r ->
       r = Ok tt \/ io_error rp wp r) /\
    (4 * length (concat wsA) + 2 * length itA < k -> d_got (n_there n) = itA) /\
    (4 * length (concat wsB) + 2 * length itB < k -> d_got (n_here n) = itB).
Proof.
  intros A B cA cB wsA itA wsB itB w1 r1 w2 r2 MA MB NW1 NR1 NW2 NR2.
  assert (POS : forall x : list byte, x <> [] -> 0 < length x) by (intros [|? ?]; [congruence|cbn; lia]).
  destruct (link_start w1 r2 MA) as (f1 & K1). destruct (link_start w2 r1 MB) as (f2 & K2).
  exists (f1 + f2). intros fuel LF h t k n H.
  destruct (K1 fuel ltac:(lia)) as (F1 & Pe1 & Pd1 & a1 & i1 & HD1 & HB1 & HR1 & HF1 & H01 & IV1).
  destruct (K2 fuel ltac:(lia)) as (F2 & Pe2 & Pd2 & a2 & i2 & HD2 & HB2 & HR2 & HF2 & H02 & IV2).
  pose proof (inv_lively (fuel := fuel) itA i1 HD1 HB1 HR1 HF1 H01 (POS _ NW1) (POS _ NR2)) as L1.
  pose proof (inv_lively (fuel := fuel) itB i2 HD2 HB2 HR2 HF2 H02 (POS _ NW2) (POS _ NR1)) as L2.
  set (N1 := 4 * length (concat wsA) + 2 * length itA) in *. set (N2 := 4 * length (concat wsB) + 2 * length itB) in *.
  assert (ST : both (encoder cA) (encoder cB) itA itB
            (inv (encoder cA) (decoder cA) F1 Pe1 Pd1 fuel (length w1) (length r2) itA)
            (inv (encoder cB) (decoder cB) F2 Pe2 Pd2 fuel (length w2) (length r1) itB) N1 N2 false false 0
            (fresh_net cA cB itA itB w1 r1 w2 r2)).
  { exists N1, N2. split; [exact IV1|]. split; [exact IV2|]. split; right; eexists; (split; [reflexivity|]); (split; [lia|]);
      intros _; split; discriminate. }
  pose proof (runs_both L1 L2 ST H) as B0. pose proof B0 as (n1 & n2 & A1 & A2 & G1 & G2).
  split; [destruct (lv_prefix L1 _ _ A1) as (pend & P); exists pend; exact P|].
  split; [destruct (lv_prefix L2 _ _ A2) as (pend & P); exists pend; exact P|].
  split; [intros rp wp who n' r X; apply (step_both L1 L2 B0 X)|].
  split; intros LK.
  - destruct G1 as [G|(m & _ & L & _)]; [exact G|lia].
  - destruct G2 as [G|(m & _ & L & _)]; [exact G|lia].
Qed.
Print Assumptions C92_delivers.

(** From every state that can be reached the rounds can go on: for each peer there is a turn that
    succeeds and in which the connection is willing.  (With [C92_delivers]: everything can still be exchanged.) *)
Theorem C92_goes_on : forall A B (cA : codec A) (cB : codec B) wsA itA wsB itB w1 r1 w2 r2,
  messages cA wsA itA -> messages cB wsB itB ->
  w1 <> [] -> r1 <> [] -> w2 <> [] -> r2 <> [] ->
  exists f0, forall fuel, f0 < fuel -> forall h t k n,
  runs (encoder cA) (decoder cA) (encoder cB) (decoder cB) fuel (fresh_net cA cB itA itB w1 r1 w2 r2) h t k n ->
    forall who, exists rp wp n',
      step (encoder cA) (decoder cA) (encoder cB) (decoder cB) fuel n rp wp who n' (Ok tt) /\
      willing (if who then n_back n else n_out n) rp wp.
Proof.
  intros A B cA cB wsA itA wsB itB w1 r1 w2 r2 MA MB NW1 NR1 NW2 NR2.
  destruct (C92_delivers MA MB NW1 NR1 NW2 NR2) as (f3 & K3).
  assert (POS : forall x : list byte, x <> [] -> 0 < length x) by (intros [|? ?]; [congruence|cbn; lia]).
  destruct (link_start w1 r2 MA) as (f1 & K1). destruct (link_start w2 r1 MB) as (f2 & K2).
  exists (f1 + f2 + f3). intros fuel LF h t k n H.
  destruct (K1 fuel ltac:(lia)) as (F1 & Pe1 & Pd1 & a1 & i1 & HD1 & HB1 & HR1 & HF1 & H01 & IV1).
  destruct (K2 fuel ltac:(lia)) as (F2 & Pe2 & Pd2 & a2 & i2 & HD2 & HB2 & HR2 & HF2 & H02 & IV2).
  destruct (K3 fuel ltac:(lia) h t k n H) as (_ & _ & RO & _).
  pose proof (inv_lively (fuel := fuel) itA i1 HD1 HB1 HR1 HF1 H01 (POS _ NW1) (POS _ NR2)) as L1.
  pose proof (inv_lively (fuel := fuel) itB i2 HD2 HB2 HR2 HF2 H02 (POS _ NW2) (POS _ NR1)) as L2.
  set (N1 := 4 * length (concat wsA) + 2 * length itA) in *. set (N2 := 4 * length (concat wsB) + 2 * length itB) in *.
  assert (ST : both (encoder cA) (encoder cB) itA itB
            (inv (encoder cA) (decoder cA) F1 Pe1 Pd1 fuel (length w1) (length r2) itA)
            (inv (encoder cB) (decoder cB) F2 Pe2 Pd2 fuel (length w2) (length r1) itB) N1 N2 false false 0
            (fresh_net cA cB itA itB w1 r1 w2 r2)).
  { exists N1, N2. split; [exact IV1|]. split; [exact IV2|]. split; right; eexists; (split; [reflexivity|]); (split; [lia|]);
      intros _; split; discriminate. }
  destruct (runs_both L1 L2 ST H) as (n1 & n2 & A1 & A2 & _).
  assert (NE : forall back r, io_error (polite back) polite_w r -> False).
  { intros back r (e & N & [X|X] & _); [destruct back|]; cbn in X; intuition congruence. }
  intros [|].
  - destruct (turn (encoder cA) (decoder cB) fuel false (n_here n) (n_back n) (n_out n) (polite (n_back n)) polite_w)
      as [[[me back] out] r] eqn:X.
    destruct (polite_legal (encoder cA) L2 _ _ _ _ _ _ A2 X) as [LG W].
    pose proof (step_here (encoder cA) (decoder cA) (decoder cB) fuel n X LG) as SP.
    destruct (RO _ _ _ _ _ SP) as [->|Z]; [eauto 6|destruct (NE _ _ Z)].
  - destruct (turn (encoder cB) (decoder cA) fuel false (n_there n) (n_out n) (n_back n) (polite (n_out n)) polite_w)
      as [[[me out] back] r] eqn:X.
    destruct (polite_legal (encoder cB) L1 _ _ _ _ _ _ A1 X) as [LG W].
    pose proof (@step_there _ _ _ _ _ _ (encoder cA) (decoder cA) (encoder cB) (decoder cB) fuel n _ _ _ _ _ _ _ X LG) as SP.
    destruct (RO _ _ _ _ _ SP) as [->|Z]; [eauto 6|destruct (NE _ _ Z)].
Qed.
Print Assumptions C92_goes_on.

(** [willing] asks that reading does not fail: [execute_io] does not get to its [flush] then, so a connection
    that cannot be read from is never written to either; [execute_io_poll] writes all the same. *)
Theorem C92_failing_read_refuted : forall rb wb back out rp wp e,
  rb_ok rb -> rb_is_full rb = false -> e <> IoWouldBlock ->
  (exists rb', do_io false rb wb back out (Some (RdErr e) :: rp) wp = (rb', wb, back, out, Err (reported_kind e))) /\
  (wb_ok wb -> wb_content wb <> [] -> ~ In (Some (WrErr IoWouldBlock)) wp -> ~ In (Some (RdErr IoWouldBlock)) rp ->
   match wp with [] | Some (WrSome _) :: _ => True | _ => False end ->
   exists rb' wb' back' out' x, do_io true rb wb back out (Some (RdErr e) :: rp) wp = (rb', wb', back', out', x) /\
     wb_content wb' <> wb_content wb).
Proof.
  intros rb wb back out rp wp e OK NF NE.
  assert (FI : rb_fill rb (mkReader back (splan (Some (RdErr e) :: rp))) =
               (rb_set_state rb StError, mkReader back (splan rp), Err (reported_kind e))).
  { unfold rb_fill. cbn [rb_fill_loop]. rewrite NF, usize_sub_ok by apply OK. cbn.
    destruct e; [congruence|reflexivity..]. }
  split.
  - exists (rb_set_state rb StError). unfold do_io, bi_execute. cbn [bi_rbuf bi_wbuf bi_rd bi_wr].
    change (sync_reader (mkAReader back (Some (RdErr e) :: rp))) with (mkReader back (splan (Some (RdErr e) :: rp))).
    rewrite FI. reflexivity.
  - intros WB CW NB NR G.
    destruct (do_io true rb wb back out (Some (RdErr e) :: rp) wp) as [[[[rb' wb'] back'] out'] x] eqn:IO.
    exists rb', wb', back', out', x. split; [reflexivity|].
    assert (PL : true = true -> ~ In (Some (RdErr IoWouldBlock)) (Some (RdErr e) :: rp) /\ ~ In (Some (WrErr IoWouldBlock)) wp).
    { intros _. split; [|exact NB]. intros [X|X]; [injection X as X; congruence|contradiction]. }
    assert (FL : exists w x2 k, wb_flush wb (mkWriter out (swplan wp)) = (wb', w, x2, k)).
    { clear - IO PL. unfold do_io, ab_execute_poll in IO. cbn [ab_rbuf ab_wbuf ab_rd ab_wr] in IO.
      destruct (PL eq_refl) as [_ PW].
      destruct (rb_poll_fill rb _) as [[rb1 rd1] p1].
      destruct (wb_poll_flush wb (mkAWriter out wp)) as [[wb1 wr1] p2] eqn:W.
      destruct (Props_Io.C45_poll_flush wb (w := mkAWriter out wp) PW W) as ([k FW] & _).
      injection IO as <- <- <- <- <-. eauto. }
    destruct FL as (w & x2 & k & FL).
    destruct (flush_spec _ WB FL) as [(rest & w1 & WR & _ & _ & C' & _ & Cases) _]. rewrite C'.
    inversion WR as [|? ? m w2 ? ? Z1 Z2]; subst.
    + exfalso. destruct Cases as [(Z & _)|(_ & o & e' & Z1 & Z2 & _)].
      * congruence.
      * match goal with Q : wb_content wb = _ |- _ => rewrite <- Q in Z1 end.
        unfold wr_write in Z1. destruct (wb_content wb) as [|y c]; [congruence|].
        destruct wp as [|[[m| |e'']|] wp]; try contradiction; cbn in Z1; injection Z1 as <- <-; discriminate Z2.
    + destruct (writing_data Z2) as [_ WL]. intros Q. rewrite Q in WL. rewrite skipn_length in WL.
      destruct (wb_content wb); [congruence|]. cbn in WL. lia.
Qed.
Print Assumptions C92_failing_read_refuted.

(** ** The hypotheses are met: two messages one way, one the other way, buffers of 2 and 3 bytes, one byte per turn *)
Fixpoint play {A B} (cA : codec A) (cB : codec B) (fuel k : nat) n :=
  match k with
  | 0 => n
  | S k' =>
      let '(me, back, out, _) := turn (encoder cA) (decoder cB) fuel (Nat.even k) (n_here n) (n_back n) (n_out n)
                                   (polite (n_back n)) polite_w in
      let n1 := mkNet me (n_there n) out back in
      let '(me, out, back, _) := turn (encoder cB) (decoder cA) fuel false (n_there n1) (n_out n1) (n_back n1)
                                   (polite (n_out n1)) polite_w in
      play cA cB fuel k' (mkNet (n_here n1) me out back)
  end.
Example C92_example :
  let itA := [ex_tlv_item; (8%N, [])] in
  let itB := [(9%N, [x01])] in
  let n0 := fresh_net ex_tlv ex_tlv itA itB [x00; x00] [x00; x00; x00] [x00; x00] [x00; x00; x00] in
  let seen n := (d_got (n_there n), d_got (n_here n), n_out n, n_back n) in
  messages ex_tlv [ex_tlv_bytes; [x08; x00; x00]] itA /\
  seen (play ex_tlv ex_tlv 100 4 n0) = ([], [], [], [x01]) /\
  seen (play ex_tlv ex_tlv 100 14 n0) = (itA, itB, [], []).
Proof. split; [apply C46_example|]. split; vm_compute; reflexivity. Qed.
Example C92_failing_read_example :
  let rb := rb_new [x00] in
  let wb := snd (fst (encode_to_write_buf (encoder ex_tlv) 100 (fst (enc_start (encoder ex_tlv) 100 (enc_fresh ex_tlv) ex_tlv_item))
                        (wb_new [x00; x00]))) in
  rb_ok rb /\ rb_is_full rb = false /\ wb_ok wb /\ wb_content wb = [x07; x00] /\
  snd (fst (do_io false rb wb [] [] [Some (RdErr IoOther)] [])) = [] /\
  snd (fst (do_io true rb wb [] [] [Some (RdErr IoOther)] [])) = [x07; x00].
Proof.
  cbv zeta. split; [apply Props_Io.new_ok|]. split; [reflexivity|]. split; [split; vm_compute; repeat constructor; discriminate|].
  repeat split; vm_compute; reflexivity.
Qed.
