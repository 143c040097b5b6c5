(** * Proofs for C93: requests and replies over [BufferedIo]. *)
From Coq Require Import Lia ZifyBool ZifyNat ZifyN.
From Verif Require Import Rpc DuplexProofs LinkProofs Link IoProofs Universe CodecProofs Drive Contract Lib Props_Io Props_Link.
Set Implicit Arguments.

Definition cost (ws : list (list byte)) : nat := 4 * length (concat ws) + 2 * length ws.
Lemma cost_app : forall a b, cost (a ++ b) = cost a + cost b.
Proof. intros. unfold cost. rewrite concat_app, !app_length. lia. Qed.
Lemma cost_cons : forall w ws, cost (w :: ws) = 4 * length w + 2 + cost ws.
Proof. intros. unfold cost. cbn [concat length]. rewrite app_length. lia. Qed.

(** ** One more item to send *)
Section Ext.
Variables (Se Sd A : Type) (E : Encoder Se A) (D : Decoder Sd A).
Variables (F : format A) (Pe : Se -> Prop) (Pd : Sd -> Prop) (fuel wcap rcap : nat).
Hypothesis HB : forall s, Pd s -> dec_idle D s = false.
Lemma recv_ext : forall s pend str w i, receiver_ok D F Pd s pend str -> F w i -> w <> [] ->
  receiver_ok D F Pd s (pend ++ [i]) (str ++ w).
Proof.
  intros s [|j pend] str w i H Fw Nw; cbn [receiver_ok app] in *.
  - destruct H as (-> & ID & P). exists w, []. cbn. rewrite app_nil_r. auto 7.
  - destruct H as (drest & ws & P & ID & ND & HW & ->). exists drest, (ws ++ [w]).
    split; [exact P|]. split; [exact ID|]. split; [exact ND|]. split.
    + apply Forall2_app; [exact HW|]. constructor; auto.
    + rewrite concat_app. cbn [concat]. rewrite app_nil_r, app_assoc. reflexivity.
Qed.
Lemma inv_ext : forall items n e wb str rb s got w i,
  inv E D F Pe Pd fuel wcap rcap items n (mkLink [] e wb str rb s got) ->
  enc_idle E e = true -> rb_state rb <> StEos ->
  sends_as E Pe fuel wcap w i -> F w i -> w <> [] ->
  (N.of_nat (n + (4 * length w + 2)) <= u64_max)%N ->
  inv E D F Pe Pd fuel wcap rcap (items ++ [i]) (n + (4 * length w + 2)) (mkLink [i] e wb str rb s got).
Proof.
  intros items n e wb str rb s got w i [EX WB WC WS RB RC EO] ID NE SA Fw Nw LN.
  cbn [l_todo l_enc l_wbuf l_stream l_rbuf l_dec l_got] in *.
  destruct EX as (wt & erest & pend & HT & HS & HI & HRc & HL & M).
  cbn [l_todo l_enc l_wbuf l_stream l_rbuf l_dec l_got] in *. inversion HT; subst wt.
  pose proof HS as HS'. unfold sender_ok in HS'. rewrite ID in HS'. destruct HS' as [_ ->].
  constructor; cbn [l_todo l_enc l_wbuf l_stream l_rbuf l_dec l_got]; auto; [|congruence].
  exists [w], [], (pend ++ [i]). cbn [l_todo l_enc l_wbuf l_stream l_rbuf l_dec l_got].
  unfold pipe, measure in *. cbn [l_todo l_enc l_wbuf l_stream l_rbuf l_dec l_got concat app length] in *.
  rewrite ID in *. rewrite !app_nil_r in *.
  assert (PQ : rb_content rb ++ str ++ wb_content wb ++ w = (rb_content rb ++ str ++ wb_content wb) ++ w)
    by (rewrite <- !app_assoc; reflexivity).
  split; [constructor; [exact SA|constructor]|]. split; [exact HS|].
  split; [rewrite HI, app_assoc; reflexivity|]. rewrite PQ.
  split; [apply recv_ext; auto|]. split; [|rewrite M; lia].
  unfold len. rewrite !app_length. lia.
Qed.
End Ext.

(** ** One direction, with items that are decided on as it goes *)
Record flow {Se Sd A} (E : Encoder Se A) (D : Decoder Sd A) (fuel : nat) (wire : list byte -> A -> Prop)
    (J : list A -> nat -> link Se Sd A -> Prop) : Prop := {
  fl_lively : forall items, lively E D fuel items (J items);
  fl_ext : forall items n e wb str rb s got w i,
    J items n (mkLink [] e wb str rb s got) -> enc_idle E e = true -> rb_state rb <> StEos -> wire w i ->
    (N.of_nat (n + (4 * length w + 2)) <= u64_max)%N ->
    J (items ++ [i]) (n + (4 * length w + 2)) (mkLink [i] e wb str rb s got)
}.

Lemma flow_start : forall A (c : codec A) ws items winner rinner, messages c ws items ->
  winner <> [] -> rinner <> [] ->
  exists f0, forall fuel, f0 < fuel ->
  exists wire J, flow (encoder c) (decoder c) fuel wire J /\ Forall2 wire ws items /\
    J [] 0 (mkLink [] (enc_fresh c) (wb_new winner) [] (rb_new rinner) (dec_fresh c) []).
Proof.
  intros A c ws items winner rinner (WF & SDc & DA & EA & BU & HW & NE & LN) NW NR.
  pose proof (proj1 term_dec_ok A c WF) as DO. unfold code_dec_ok in DO. rewrite DA, SDc, BU in DO.
  destruct (dec_ok_again DO) as (Pd & HD & D0 & HB). specialize (HB (or_introl eq_refl)).
  pose proof (proj1 term_enc_ok A c WF) as EO. unfold code_enc_ok in EO. rewrite EA in EO.
  destruct (enc_ok_again EO) as (Pe & HE & E0 & RS).
  assert (K : exists f0, forall fuel, f0 < fuel ->
            Forall2 (fun w i => sends_as (encoder c) Pe fuel (length winner) w i /\ reads c w i /\ w <> []) ws items).
  { clear - HW HE. induction HW as [|w a ws items [W N] HW (f0 & IH)].
    - exists 0. intros. constructor.
    - destruct (HE w a W) as (f1 & AC). exists (f0 + f1 + length winner). intros fuel LF.
      constructor; [|apply IH; lia]. split; [exists f1; split; [lia|exact AC]|].
      split; [apply (proj1 wire_reads A c w a W)|exact N]. }
  destruct K as (f0 & K). exists (f0 + length rinner). intros fuel LF.
  exists (fun w i => sends_as (encoder c) Pe fuel (length winner) w i /\ reads c w i /\ w <> []).
  exists (inv (encoder c) (decoder c) (reads c) Pe Pd fuel (length winner) (length rinner)).
  assert (H0 : exists w0 i0, reads c w0 i0 /\ w0 <> []).
  { destruct HW as [|w a ws items [W N] HW]; [congruence|]. exists w, a. split; [apply (proj1 wire_reads A c w a W)|exact N]. }
  destruct H0 as (w0 & i0 & H0).
  destruct (RS _ E0) as (ID & _).
  split; [split|split; [apply K; lia|]].
  - intros its. apply inv_lively with (w0 := w0) (i0 := i0); auto; try lia.
    + destruct winner; [congruence|cbn; lia].
    + destruct rinner; [congruence|cbn; lia].
  - intros its n e wb str rb s got w i IV IDe NEs (SA & RW & NWw) B. apply inv_ext; auto.
  - constructor; cbn [l_todo l_enc l_wbuf l_stream l_rbuf l_dec l_got].
    + exists [], [], []. unfold pipe, measure. cbn [l_todo l_enc l_wbuf l_stream l_rbuf l_dec l_got]. rewrite ID.
      change (rb_content (rb_new rinner)) with (@nil byte). change (wb_content (wb_new winner)) with (@nil byte).
      cbn [app concat length receiver_ok].
      split; [constructor|]. split; [unfold sender_ok; rewrite ID; auto|]. split; [reflexivity|].
      split; [split; [reflexivity|]|split; [vm_compute; discriminate|reflexivity]].
      eapply pd_ready; eauto.
    + apply wnew_ok.
    + reflexivity.
    + discriminate.
    + apply new_ok.
    + reflexivity.
    + discriminate.
Qed.

Section Flow.
Context {Se Sd A : Type}.
Variables (E : Encoder Se A) (D : Decoder Sd A) (fuel : nat) (wire : list byte -> A -> Prop).
Variables (J : list A -> nat -> link Se Sd A -> Prop).
Hypothesis (FL : flow E D fuel wire J).

Lemma encode_adv : forall items n e wb str rb s got e' wb' x, J items n (mkLink [] e wb str rb s got) ->
  encode_to_write_buf E fuel e wb = (e', wb', x) ->
  x = Ok tt /\ exists n', adv E (J items) n (mkLink [] e wb str rb s got) n' (mkLink [] e' wb' str rb s got) /\
    (wb_content wb = [] -> n' = n -> enc_idle E e = true).
Proof.
  intros items n e wb str rb s got e' wb' x Jn H. pose proof (fl_lively FL items) as LV.
  assert (P : put_out E fuel [] e wb = ([], e', wb', x)) by (unfold put_out; rewrite H; reflexivity).
  destruct (@put_out_adv _ _ _ _ _ _ _ _ LV _ _ _ _ _ _ _ _ _ _ _ _ Jn P) as (-> & n' & AD & Q).
  split; [reflexivity|]. exists n'. split; [exact AD|]. intros C QN. apply (Q C QN).
Qed.

(** What [put_out] does: it goes on with the item it is at, or starts the next one. *)
Lemma put_adv : forall items n todo ws e wb str rb s got todo' e' wb' x,
  J items n (mkLink [] e wb str rb s got) -> Forall2 wire ws todo ->
  (N.of_nat (n + cost ws) <= u64_max)%N -> (rb_state rb = StEos -> todo = []) ->
  put_out E fuel todo e wb = (todo', e', wb', x) ->
  x = Ok tt /\ exists items' n' ws',
    J items' n' (mkLink [] e' wb' str rb s got) /\ Forall2 wire ws' todo' /\ n' + cost ws' <= n + cost ws /\
    ((todo' = todo /\ items' = items /\ ws' = ws) \/
     (n' + cost ws' < n + cost ws /\ exists i w, todo = i :: todo' /\ items' = items ++ [i] /\ ws = w :: ws')) /\
    (n' + cost ws' = n + cost ws ->
      adv E (J items) n (mkLink [] e wb str rb s got) n' (mkLink [] e' wb' str rb s got) /\
      (wb_content wb = [] -> todo = [] /\ enc_idle E e = true)).
Proof.
  intros items n todo ws e wb str rb s got todo' e' wb' x Jn HW LN EO H.
  assert (ENC : forall e' wb' x, encode_to_write_buf E fuel e wb = (e', wb', x) ->
    (todo = [] \/ enc_idle E e = false) ->
    x = Ok tt /\ exists items' n' ws',
    J items' n' (mkLink [] e' wb' str rb s got) /\ Forall2 wire ws' todo /\ n' + cost ws' <= n + cost ws /\
    ((todo = todo /\ items' = items /\ ws' = ws) \/
     (n' + cost ws' < n + cost ws /\ exists i w, todo = i :: todo /\ items' = items ++ [i] /\ ws = w :: ws')) /\
    (n' + cost ws' = n + cost ws ->
      adv E (J items) n (mkLink [] e wb str rb s got) n' (mkLink [] e' wb' str rb s got) /\
      (wb_content wb = [] -> todo = [] /\ enc_idle E e = true))).
  { clear H. intros e1 wb1 x1 X C. destruct (encode_adv Jn X) as (-> & n1 & AD & Q). split; [reflexivity|].
    exists items, n1, ws. split; [apply AD|]. split; [exact HW|]. split; [destruct AD as (_ & L & _); lia|].
    split; [left; auto|]. intros EQ. split; [exact AD|]. intros CW. assert (n1 = n) by lia.
    specialize (Q CW H). destruct C as [->|C]; [auto|congruence]. }
  unfold put_out in H. destruct todo as [|i todo].
  - destruct (encode_to_write_buf E fuel e wb) as [[s2 wb2] r] eqn:X.
    assert (H' : ([], s2, wb2, r) = (todo', e', wb', x)) by (destruct (enc_idle E e); exact H).
    injection H' as <- <- <- <-. apply ENC; auto.
  - destruct (enc_idle E e) eqn:ID.
    2:{ destruct (encode_to_write_buf E fuel e wb) as [[s2 wb2] r] eqn:X. injection H as <- <- <- <-. apply ENC; auto. }
    inversion HW as [|w ? ws' ? Wi HW']; subst. rewrite cost_cons in *.
    assert (NE : rb_state rb <> StEos) by (intros Q; specialize (EO Q); discriminate).
    pose proof (@fl_ext _ _ _ _ _ _ _ _ FL _ _ _ _ _ _ _ _ _ _ Jn ID NE Wi ltac:(lia)) as J2.
    destruct (enc_start E fuel e i) as [s1 r1] eqn:ST.
    assert (X : act E D fuel AStart (mkLink [i] e wb str rb s got) = Some (mkLink [] s1 wb str rb s got, r1)).
    { cbn. rewrite ID, ST. reflexivity. }
    destruct (act_adv (fl_lively FL _) J2 X) as ([->|(ioe & [] & _)] & n1 & AD & MV).
    assert (L1 : n1 < n + (4 * length w + 2)) by (apply MV; left; discriminate).
    destruct (encode_to_write_buf E fuel s1 wb) as [[s2 wb2] r] eqn:Y. injection H as <- <- <- <-.
    destruct (encode_adv (proj1 AD) Y) as (-> & n2 & AD2 & _). split; [reflexivity|].
    destruct AD2 as (J3 & L2 & _). exists (items ++ [i]), n2, ws'. split; [exact J3|]. split; [exact HW'|].
    split; [lia|]. split; [right; split; [lia|]; exists i, w; auto|]. lia.
Qed.
End Flow.

Lemma take_in_one : forall Sd B (D : Decoder Sd B) fuel rb s got rb' s' got' x,
  take_in D fuel rb s got = (rb', s', got', x) -> got' = got \/ exists i, got' = got ++ [i].
Proof.
  intros Sd B D fuel rb s got rb' s' got' x H. unfold take_in in H.
  destruct (st_is_eos (rb_state rb) && rb_is_empty rb); [injection H as <- <- <- <-; auto|].
  destruct (decode_from_read_buf D fuel s rb) as [[s1 rb1] [u|e| |]]; try (injection H as <- <- <- <-; auto).
  destruct (dec_idle D s1); [|injection H as <- <- <- <-; auto].
  destruct (dec_finish D s1) as [s2 [i|e| |]]; injection H as <- <- <- <-; eauto.
Qed.

Section Rpc.
Context {R Sa Sb Ta Tb A B : Type}.
Variables (EA : Encoder Sa A) (DA : Decoder Ta A) (EB : Encoder Sb B) (DB : Decoder Tb B) (fuel : nat).
Variables (serve : R -> A -> R * B) (window : nat) (reqs : list A) (r0 : R).
Variables (wire1 : list byte -> A -> Prop) (wire2 : list byte -> B -> Prop).
Variables (J1 : list A -> nat -> link Sa Ta A -> Prop) (J2 : list B -> nat -> link Sb Tb B -> Prop).
Hypothesis (F1 : flow EA DA fuel wire1 J1).
Hypothesis (F2 : flow EB DB fuel wire2 J2).
Variables (N1 N2 : nat).
Hypothesis (B1 : (N.of_nat N1 <= u64_max)%N).
Hypothesis (B2 : (N.of_nat N2 <= u64_max)%N).
Hypothesis (PW : 0 < window).
Notation rpc := (rpc R Sa Sb Ta Tb A B).

Fixpoint after (r : R) (l : list A) : R := match l with [] => r | i :: l' => after (fst (serve r i)) l' end.
Lemma after_app : forall l l' r, after r (l ++ l') = after (after r l) l'.
Proof. induction l; cbn; intros; auto. Qed.
Lemma replies_app : forall l l' r, replies serve r (l ++ l') = replies serve r l ++ replies serve (after r l) l'.
Proof. induction l; cbn; intros; auto. now rewrite IHl. Qed.
Lemma replies_length : forall l r, length (replies serve r l) = length l.
Proof. induction l; cbn; intros; auto. Qed.

Definition lk1 (n : rpc) : link Sa Ta A :=
  mkLink [] (d_enc (p_client n)) (d_wbuf (p_client n)) (p_out n) (d_rbuf (p_server n)) (d_dec (p_server n)) (d_got (p_server n)).
Definition lk2 (n : rpc) : link Sb Tb B :=
  mkLink [] (d_enc (p_server n)) (d_wbuf (p_server n)) (p_back n) (d_rbuf (p_client n)) (d_dec (p_client n)) (d_got (p_client n)).

(** The invariant, with the measure of what is still to be done. *)
Definition rinv (tot : nat) (n : rpc) : Prop :=
  exists st1 ws1 n1 pend st2 ws2 n2,
    J1 st1 n1 (lk1 n) /\ J2 st2 n2 (lk2 n) /\
    reqs = st1 ++ d_todo (p_client n) /\ st1 = d_got (p_server n) ++ pend /\ p_sent n = length st1 /\
    Forall2 wire1 ws1 (d_todo (p_client n)) /\ n1 + cost ws1 <= N1 /\
    replies serve r0 (d_got (p_server n)) = st2 ++ d_todo (p_server n) /\ p_state n = after r0 (d_got (p_server n)) /\
    Forall2 wire2 ws2 (d_todo (p_server n) ++ replies serve (p_state n) (pend ++ d_todo (p_client n))) /\
    n2 + cost ws2 <= N2 /\
    (rb_state (d_rbuf (p_server n)) = StEos -> d_todo (p_client n) = []) /\
    (rb_state (d_rbuf (p_client n)) = StEos -> d_got (p_server n) = reqs /\ d_todo (p_server n) = []) /\
    p_sent n <= length (d_got (p_client n)) + window /\
    tot = (n1 + cost ws1) + (n2 + cost ws2).

(** Nothing has moved. *)
Definition still (n n' : rpc) : Prop :=
  d_todo (p_client n') = d_todo (p_client n) /\ d_todo (p_server n') = d_todo (p_server n) /\ p_sent n' = p_sent n /\
  same EA (lk1 n) (lk1 n') /\ same EB (lk2 n) (lk2 n') /\
  d_got (p_client n') = d_got (p_client n) /\ d_got (p_server n') = d_got (p_server n).
(** The client, or the server, can do nothing. *)
Definition cstuck (n : rpc) : Prop :=
  enc_idle EA (d_enc (p_client n)) = true /\ wb_content (d_wbuf (p_client n)) = [] /\
  (d_todo (p_client n) = [] \/ window <= p_sent n - length (d_got (p_client n))) /\
  rb_content (d_rbuf (p_client n)) = [] /\ p_back n = [].
Definition sstuck (n : rpc) : Prop :=
  enc_idle EB (d_enc (p_server n)) = true /\ wb_content (d_wbuf (p_server n)) = [] /\
  d_todo (p_server n) = [] /\ rb_content (d_rbuf (p_server n)) = [] /\ p_out n = [].
Lemma cstuck_still : forall n n', still n n' -> cstuck n -> cstuck n'.
Proof.
  intros n n' (a & b & c & (_ & d1 & d2 & d3 & d4) & (_ & e1 & e2 & e3 & e4) & f & g). unfold cstuck. cbn in *.
  rewrite a, c, d1, d2, e3, e4, f. auto.
Qed.
Lemma sstuck_still : forall n n', still n n' -> sstuck n -> sstuck n'.
Proof.
  intros n n' (a & b & c & (_ & d1 & d2 & d3 & d4) & (_ & e1 & e2 & e3 & e4) & f & g). unfold sstuck. cbn in *.
  rewrite b, d3, d4, e1, e2. auto.
Qed.

Lemma stuck_done : forall tot n, rinv tot n -> cstuck n -> sstuck n -> d_got (p_client n) = replies serve r0 reqs.
Proof.
  intros tot n (st1 & ws1 & n1 & pend & st2 & ws2 & n2 & H1 & H2 & RQ & SP & SN & _ & _ & RP & _)
    (a1 & a2 & a3 & a4 & a5) (b1 & b2 & b3 & b4 & b5).
  pose proof (lv_done (fl_lively F1 st1) _ _ H1 eq_refl a1 a2 b5 b4) as G1.
  pose proof (lv_done (fl_lively F2 st2) _ _ H2 eq_refl b1 b2 a5 a4) as G2. cbn in G1, G2.
  rewrite b3, app_nil_r in RP. pose proof (replies_length (d_got (p_server n)) r0) as RL.
  rewrite RP, <- G2, G1 in RL.
  destruct a3 as [a3|a3]; [|lia]. rewrite a3, app_nil_r in RQ. subst reqs. rewrite <- G1, RP, <- G2. reflexivity.
Qed.

Ltac flds := unfold lk1, lk2 in *; cbn [p_client p_sent p_server p_state p_out p_back d_todo d_enc d_wbuf d_rbuf d_dec d_got
                  l_todo l_enc l_wbuf l_stream l_rbuf l_dec l_got] in *.
Lemma adv_same : forall Se Sd I (E : Encoder Se I) J n (l : link Se Sd I) n' l', adv E J n l n' l' -> n' = n ->
  same E l l' /\ l_got l' = l_got l.
Proof.
  intros Se Sd I E J n l n' l' (_ & _ & SM & (news & G & Z)) Q. split; [auto|]. rewrite G, (Z Q). apply app_nil_r.
Qed.

Lemma client_step : forall polled n rp wp me sent back out x tot, rinv tot n ->
  client_turn EA DB fuel polled window (p_sent n) (p_client n) (p_back n) (p_out n) rp wp = (me, sent, back, out, x) ->
  may polled rp wp ->
  (rb_state (d_rbuf me) = StEos ->
     d_got (p_server n) = reqs /\ d_todo (p_server n) = [] /\ enc_idle EB (d_enc (p_server n)) = true /\
     wb_content (d_wbuf (p_server n)) = [] /\ back = []) ->
  let n' := mkRpc me sent (p_server n) (p_state n) out back in
  (x = Ok tt \/ io_error rp wp x) /\
  exists tot', rinv tot' n' /\ tot' <= tot /\
    (tot' = tot -> still n n' /\ (willing (p_back n) rp wp -> cstuck n')).
Proof.
  intros polled [[todo e wb rb s got] snt [otodo oe owb orb os ogot] st out0 back0] rp wp me sent back out x tot IV H (NZ & PL) EO n'.
  destruct IV as (st1 & ws1 & n1 & pend & st2 & ws2 & n2 & H1 & H2 & RQ & SP & SN & HW1 & LE1 & RP & SS & HW2 & LE2 & EO1 & EO2 & WI & TT).
  unfold client_turn in H. flds.
  destruct (do_io polled rb wb back0 out0 rp wp) as [[[[rb1 wb1] back1] out1] x1] eqn:IO.
  assert (BK : back = back1 /\ out = out1 /\ rb_state (d_rbuf me) = rb_state rb1).
  { destruct x1 as [u|k| |]; try (injection H as <- <- <- <- <-; auto).
    destruct (take_in DB fuel rb1 s got) as [[[rb2 s2] got2] x2] eqn:TI.
    pose proof (@take_in_state _ _ _ _ _ _ _ _ _ _ _ TI).
    destruct x2 as [u2|k| |]; try (injection H as <- <- <- <- <-; auto).
    destruct (snt - length got2 <? window).
    - destruct (put_out EA fuel todo e wb1) as [[[t3 e3] wb3] x3]. injection H as <- <- <- <- <-. auto.
    - destruct (encode_to_write_buf EA fuel e wb1) as [[e3 wb3] x3]. injection H as <- <- <- <- <-. auto. }
  destruct BK as (-> & -> & ST).
  assert (EO' : rb_state rb1 = StEos -> @nil B = [] /\ enc_idle EB oe = true /\ wb_content owb = [] /\ back1 = []).
  { intros Q. rewrite <- ST in Q. destruct (EO Q) as (_ & _ & a & b & c). auto. }
  destruct (@io_adv _ _ _ _ _ _ EA DA EB DB fuel st1 st2 (J1 st1) (J2 st2) (fl_lively F1 st1) (fl_lively F2 st2)
              _ _ _ _ _ _ _ _ _ _ _ _ _ _ _ _ _ _ _ _ _ _ _ _ H1 H2 IO NZ PL EO') as (XO & XW & m1 & m2 & AD1 & AD2 & CW & FM).
  assert (EOc : rb_state (d_rbuf me) = StEos -> ogot = reqs /\ otodo = []) by (intros Q; destruct (EO Q) as (a & b & _); auto).
  (* nothing but the input and output *)
  assert (SHORT : me = mkSide todo e wb1 rb1 s got -> sent = snt -> x = x1 -> x1 <> Ok tt ->
    (x = Ok tt \/ io_error rp wp x) /\
    exists tot', rinv tot' n' /\ tot' <= tot /\
      (tot' = tot -> still (mkRpc (mkSide todo e wb rb s got) snt (mkSide otodo oe owb orb os ogot) st out0 back0) n' /\
                     (willing back0 rp wp -> cstuck n'))).
  { intros -> -> -> NX. split; [exact XO|]. destruct AD1 as (Ja & La & Sa' & Ga), AD2 as (Jb & Lb & Sb' & Gb).
    exists ((m1 + cost ws1) + (m2 + cost ws2)). split; [|split; [lia|]].
    - exists st1, ws1, m1, pend, st2, ws2, m2. unfold n'. flds.
      split; [exact Ja|]. split; [exact Jb|]. repeat (split; [solve [auto; lia]|]). auto.
    - intros Q. split; [|intros W; elim NX; auto]. unfold still, n'. flds.
      repeat (split; [reflexivity|]). split; [apply Sa'; lia|]. split; [apply Sb'; lia|]. auto. }
  destruct x1 as [u|k| |]; try (injection H as <- <- <-; apply SHORT; [reflexivity..|discriminate]).
  clear SHORT.
  destruct (take_in DB fuel rb1 s got) as [[[rb2 s2] got2] x2] eqn:TI.
  destruct (@take_in_adv _ _ _ _ _ _ _ _ (fl_lively F2 st2) _ _ _ _ _ _ _ _ _ _ _ _ (proj1 AD2) TI) as (-> & p2 & AD3 & MV3).
  assert (GG : length got <= length got2).
  { destruct AD3 as (_ & _ & _ & (news & G & _)). flds. rewrite G, app_length. lia. }
  pose proof (@adv_trans _ _ _ _ _ _ _ _ _ _ _ AD2 AD3) as AD23. pose proof AD23 as (Jb & Lb & _).
  assert (CB : willing back0 rp wp -> p2 = n2 -> rb_content rb2 = [] /\ back1 = []).
  { intros W Q. destruct (adv_same AD23 Q) as ((_ & _ & _ & b & c) & _). destruct AD2 as (_ & La & Sa' & _), AD3 as (_ & Lc & _).
    flds. assert (Q1 : m2 = n2) by lia. destruct (Sa' Q1) as (_ & _ & _ & _ & d). flds.
    assert (C : rb_content rb = []).
    { destruct (rb_content rb) eqn:C; auto. exfalso. assert (p2 < m2); [|lia]. apply MV3. rewrite d. discriminate. }
    rewrite b, c. split; [exact C|]. apply FM; auto. }
  pose proof AD1 as (Ja & La & _).
  destruct (snt - length got2 <? window) eqn:GO.
  - destruct (put_out EA fuel todo e wb1) as [[[t3 e3] wb3] x3] eqn:PO. injection H as <- <- <-.
    assert (LB : (N.of_nat (m1 + cost ws1) <= u64_max)%N) by lia.
    destruct (@put_adv _ _ _ _ _ _ _ _ F1 _ _ _ _ _ _ _ _ _ _ _ _ _ _ Ja HW1 LB EO1 PO) as (-> & st1' & p1 & ws1' & Jc & HW1' & LE & CASES & QQ).
    split; [auto|]. exists ((p1 + cost ws1') + (p2 + cost ws2)). split; [|split; [lia|]].
    + destruct CASES as [(-> & -> & ->)|(_ & i & w & -> & -> & ->)].
      * exists st1, ws1, p1, pend, st2, ws2, p2. unfold n'. flds. rewrite Nat.sub_diag, Nat.add_0_r.
        split; [exact Jc|]. split; [exact Jb|]. repeat (split; [solve [auto; lia]|]). auto.
      * exists (st1 ++ [i]), ws1', p1, (pend ++ [i]), st2, ws2, p2. unfold n'. flds.
        rewrite <- !app_assoc in *. cbn [app length] in *.
        replace (S (length t3) - length t3) with 1 by lia.
        split; [exact Jc|]. split; [exact Jb|]. split; [exact RQ|]. split; [rewrite SP, app_assoc; reflexivity|].
        split; [rewrite app_length; cbn; lia|]. split; [exact HW1'|]. split; [lia|]. split; [exact RP|]. split; [exact SS|].
        split; [exact HW2|]. split; [lia|]. split; [intros Q; specialize (EO1 Q); discriminate|]. split; [exact EOc|].
        split; [apply Nat.ltb_lt in GO; lia|lia].
    + intros Q. destruct (QQ ltac:(lia)) as [AD4 STK]. destruct CASES as [(-> & -> & ->)|(LT & _)]; [|lia].
      assert (Q1 : m1 = n1) by (destruct AD4 as (_ & L4 & _); lia). assert (Q2 : p1 = n1) by lia.
      pose proof (@adv_trans _ _ _ _ _ _ _ _ _ _ _ AD1 AD4) as AD14.
      destruct (adv_same AD14 Q2) as (S1 & G1), (adv_same AD23 ltac:(lia)) as (S2 & G2). unfold n'. split.
      * unfold still. flds. rewrite Nat.sub_diag, Nat.add_0_r. auto 8.
      * intros W. specialize (CW W Q1). destruct (CB W ltac:(lia)) as [C1 C2].
        destruct (adv_same AD1 Q1) as ((_ & _ & c & _) & _). flds.
        destruct STK as [T I]; [congruence|]. destruct S1 as (_ & i1 & c1 & _). flds.
        unfold cstuck. flds. split; [congruence|]. split; [congruence|]. auto.
  - destruct (encode_to_write_buf EA fuel e wb1) as [[e3 wb3] x3] eqn:EN. injection H as <- <- <-.
    destruct (@encode_adv _ _ _ _ _ _ _ _ F1 _ _ _ _ _ _ _ _ _ _ _ Ja EN) as (-> & p1 & AD4 & STK). pose proof AD4 as (Jc & Lc & _).
    split; [auto|]. exists ((p1 + cost ws1) + (p2 + cost ws2)). split; [|split; [lia|]].
    + exists st1, ws1, p1, pend, st2, ws2, p2. unfold n'. flds.
      split; [exact Jc|]. split; [exact Jb|]. repeat (split; [solve [auto; lia]|]). auto.
    + intros Q. assert (Q1 : m1 = n1) by lia. assert (Q2 : p1 = n1) by lia.
      pose proof (@adv_trans _ _ _ _ _ _ _ _ _ _ _ AD1 AD4) as AD14.
      destruct (adv_same AD14 Q2) as (S1 & G1), (adv_same AD23 ltac:(lia)) as (S2 & G2). unfold n'. split.
      * unfold still. flds. auto 8.
      * intros W. specialize (CW W Q1). destruct (CB W ltac:(lia)) as [C1 C2].
        destruct (adv_same AD1 Q1) as ((_ & _ & c & _) & _). flds.
        assert (I : enc_idle EA e = true) by (apply STK; [congruence|lia]). destruct S1 as (_ & i1 & c1 & _). flds.
        unfold cstuck. flds. split; [congruence|]. split; [congruence|]. split; [right; apply Nat.ltb_ge in GO; exact GO|]. auto.
Qed.

Lemma server_step : forall polled n rp wp me r back out x tot, rinv tot n ->
  server_turn EB DA fuel polled serve (p_state n) (p_server n) (p_out n) (p_back n) rp wp = (me, r, out, back, x) ->
  may polled rp wp ->
  (rb_state (d_rbuf me) = StEos ->
     d_todo (p_client n) = [] /\ enc_idle EA (d_enc (p_client n)) = true /\
     wb_content (d_wbuf (p_client n)) = [] /\ out = []) ->
  let n' := mkRpc (p_client n) (p_sent n) me r out back in
  (x = Ok tt \/ io_error rp wp x) /\
  exists tot', rinv tot' n' /\ tot' <= tot /\
    (tot' = tot -> still n n' /\ (willing (p_out n) rp wp -> sstuck n')).
Proof.
  intros polled [[otodo oe owb orb os ogot] snt [todo e wb rb s got] st back0 out0] rp wp me r out back x tot IV H (NZ & PL) EO n'.
  destruct IV as (st1 & ws1 & n1 & pend & st2 & ws2 & n2 & H1 & H2 & RQ & SP & SN & HW1 & LE1 & RP & SS & HW2 & LE2 & EO1 & EO2 & WI & TT).
  unfold server_turn in H. flds.
  destruct (do_io polled rb wb back0 out0 rp wp) as [[[[rb1 wb1] back1] out1] x1] eqn:IO.
  assert (BK : back = back1 /\ out = out1 /\ rb_state (d_rbuf me) = rb_state rb1).
  { destruct x1 as [u|k| |]; try (injection H as <- <- <- <- <-; auto).
    destruct (take_in DA fuel rb1 s got) as [[[rb2 s2] got2] x2] eqn:TI.
    pose proof (@take_in_state _ _ _ _ _ _ _ _ _ _ _ TI).
    destruct x2 as [u2|k| |]; try (injection H as <- <- <- <- <-; auto).
    destruct (match skipn (length got) got2 with [] => _ | _ :: _ => _ end) as [r1 todo1].
    destruct (put_out EB fuel todo1 e wb1) as [[[t3 e3] wb3] x3]. injection H as <- <- <- <- <-. auto. }
  destruct BK as (-> & -> & ST).
  assert (EO' : rb_state rb1 = StEos -> @nil A = [] /\ enc_idle EA oe = true /\ wb_content owb = [] /\ back1 = []).
  { intros Q. rewrite <- ST in Q. destruct (EO Q) as (_ & a & b & c). auto. }
  destruct (@io_adv _ _ _ _ _ _ EB DB EA DA fuel st2 st1 (J2 st2) (J1 st1) (fl_lively F2 st2) (fl_lively F1 st1)
              _ _ _ _ _ _ _ _ _ _ _ _ _ _ _ _ _ _ _ _ _ _ _ _ H2 H1 IO NZ PL EO') as (XO & XW & m2 & m1 & AD2 & AD1 & CW & FM).
  assert (EOc : rb_state (d_rbuf me) = StEos -> otodo = []) by (intros Q; apply (EO Q)).
  assert (SHORT : me = mkSide todo e wb1 rb1 s got -> r = st -> x = x1 -> x1 <> Ok tt ->
    (x = Ok tt \/ io_error rp wp x) /\
    exists tot', rinv tot' n' /\ tot' <= tot /\
      (tot' = tot -> still (mkRpc (mkSide otodo oe owb orb os ogot) snt (mkSide todo e wb rb s got) st back0 out0) n' /\
                     (willing back0 rp wp -> sstuck n'))).
  { intros -> -> -> NX. split; [exact XO|]. destruct AD1 as (Ja & La & Sa' & Ga), AD2 as (Jb & Lb & Sb' & Gb).
    exists ((m1 + cost ws1) + (m2 + cost ws2)). split; [|split; [lia|]].
    - exists st1, ws1, m1, pend, st2, ws2, m2. unfold n'. flds.
      split; [exact Ja|]. split; [exact Jb|]. repeat (split; [solve [auto; lia]|]). auto.
    - intros Q. split; [|intros W; elim NX; auto]. unfold still, n'. flds.
      repeat (split; [reflexivity|]). split; [apply Sa'; lia|]. split; [apply Sb'; lia|]. auto. }
  destruct x1 as [u|k| |]; try (injection H as <- <- <-; apply SHORT; [reflexivity..|discriminate]).
  clear SHORT.
  destruct (take_in DA fuel rb1 s got) as [[[rb2 s2] got2] x2] eqn:TI.
  destruct (@take_in_adv _ _ _ _ _ _ _ _ (fl_lively F1 st1) _ _ _ _ _ _ _ _ _ _ _ _ (proj1 AD1) TI) as (-> & p1 & AD3 & MV3).
  pose proof (@adv_trans _ _ _ _ _ _ _ _ _ _ _ AD1 AD3) as AD13. pose proof AD13 as (Ja & La & _).
  destruct (lv_prefix (fl_lively F1 st1) _ _ Ja) as (pend' & SP'). flds.
  assert (CB : willing back0 rp wp -> p1 = n1 -> rb_content rb2 = [] /\ back1 = []).
  { intros W Q. destruct (adv_same AD13 Q) as ((_ & _ & _ & b & c) & _). destruct AD1 as (_ & Lx & Sa' & _), AD3 as (_ & Lc & _).
    flds. assert (Q1 : m1 = n1) by lia. destruct (Sa' Q1) as (_ & _ & _ & _ & d). flds.
    assert (C : rb_content rb = []).
    { destruct (rb_content rb) eqn:C; auto. exfalso. assert (p1 < m1); [|lia]. apply MV3. rewrite d. discriminate. }
    rewrite b, c. split; [exact C|]. apply FM; auto. }
  destruct (match skipn (length got) got2 with [] => _ | _ :: _ => _ end) as [r1 todo1] eqn:AN.
  assert (NEW : r1 = after r0 got2 /\ replies serve r0 got2 = st2 ++ todo1 /\
                todo1 ++ replies serve r1 (pend' ++ otodo) = todo ++ replies serve st (pend ++ otodo) /\
                (got2 = got -> todo1 = todo) /\ (rb_state orb = StEos -> todo1 = [])).
  { destruct (take_in_one _ _ _ _ _ TI) as [->|(i & ->)].
    - rewrite skipn_all in AN. injection AN as <- <-. rewrite SP in SP'. apply app_inv_head in SP'. subst pend'.
      split; [exact SS|]. split; [exact RP|]. split; [reflexivity|]. split; [auto|]. intros Q. apply (EO2 Q).
    - rewrite skipn_app, skipn_all, Nat.sub_diag in AN. cbn [skipn app] in AN. injection AN as <- <-.
      rewrite SP, <- app_assoc in SP'. apply app_inv_head in SP'. subst pend. cbn [app replies].
      split; [rewrite after_app, <- SS; reflexivity|].
      split; [rewrite replies_app, RP, <- SS; cbn [replies]; rewrite <- app_assoc; reflexivity|].
      split; [rewrite <- app_assoc; reflexivity|]. split.
      + intros Q. apply (f_equal (@length _)) in Q. rewrite app_length in Q. cbn in Q. lia.
      + intros Q. destruct (EO2 Q) as [G _]. exfalso. rewrite RQ, SP in G.
        apply (f_equal (@length _)) in G. rewrite !app_length in G. cbn in G. lia. }
  destruct NEW as (RA & RP' & FU & KT & EOn). rewrite <- FU in HW2.
  apply Forall2_app_inv_r in HW2 as (wa & wb' & HWa & HWb & ->). rewrite cost_app in *.
  pose proof AD2 as (Jb & Lb & _).
  destruct (put_out EB fuel todo1 e wb1) as [[[t3 e3] wb3] x3] eqn:PO. injection H as <- <- <-.
  assert (LB : (N.of_nat (m2 + cost wa) <= u64_max)%N) by lia.
  destruct (@put_adv _ _ _ _ _ _ _ _ F2 _ _ _ _ _ _ _ _ _ _ _ _ _ _ Jb HWa LB EOn PO) as (-> & st2' & p2 & wa' & Jc & HWa' & LE & CASES & QQ).
  split; [auto|]. exists ((p1 + cost ws1) + (p2 + cost (wa' ++ wb'))). rewrite cost_app. split; [|split; [lia|]].
  - exists st1, ws1, p1, pend', st2', (wa' ++ wb'), p2. unfold n'. flds. rewrite cost_app.
    split; [exact Ja|]. split; [exact Jc|]. split; [exact RQ|]. split; [exact SP'|]. split; [exact SN|]. split; [exact HW1|].
    split; [lia|]. split; [|split; [exact RA|]].
    { rewrite RP'. destruct CASES as [(-> & -> & ->)|(_ & i & w & -> & -> & ->)]; [reflexivity|]. rewrite <- app_assoc. reflexivity. }
    split; [apply Forall2_app; assumption|]. split; [lia|]. split; [exact EOc|]. split; [|split; [exact WI|reflexivity]].
    intros Q. destruct (EO2 Q) as [G T]. split.
    + destruct (take_in_one _ _ _ _ _ TI) as [->|(i & ->)]; [exact G|]. exfalso.
      rewrite RQ, SP' in G. apply (f_equal (@length _)) in G. rewrite !app_length in G. cbn in G. lia.
    + specialize (EOn Q). subst todo1. destruct CASES as [(-> & _)|(_ & i & w & Z & _)]; [reflexivity|discriminate].
  - intros Q. destruct (QQ ltac:(lia)) as [AD4 STK]. destruct CASES as [(-> & -> & ->)|(LT & _)]; [|lia].
    assert (Q1 : m2 = n2) by (destruct AD4 as (_ & L4 & _); lia). assert (Q2 : p2 = n2) by lia. assert (Q3 : p1 = n1) by lia.
    pose proof (@adv_trans _ _ _ _ _ _ _ _ _ _ _ AD2 AD4) as AD24.
    destruct (adv_same AD24 Q2) as (S2 & G2), (adv_same AD13 Q3) as (S1 & G1). flds. specialize (KT G1). unfold n'. split.
    + unfold still. flds. auto 8.
    + intros W. specialize (CW W Q1). destruct (CB W Q3) as [C1 C2].
      destruct (adv_same AD2 Q1) as ((_ & _ & c & _) & _). flds.
      destruct STK as [T I]; [congruence|]. destruct S2 as (_ & i1 & c1 & _). flds.
      unfold sstuck. flds. split; [congruence|]. split; [congruence|]. auto.
Qed.
End Rpc.
