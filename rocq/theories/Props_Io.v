(** * Theorems about buffered I/O: C42, C43, C44, C45. *)
From Coq Require Import Lia ZifyBool ZifyNat ZifyN.
From Verif Require Import IoProofs Props_Safe Lib DecPrim Prim Fixnum.
Set Implicit Arguments.

Lemma new_ok : forall inner, rb_ok (rb_new inner).
Proof. intro. unfold rb_ok, indices_ok. cbn. lia. Qed.
Lemma wnew_ok : forall inner, wb_ok (wb_new inner).
Proof. intro. unfold wb_ok, indices_ok. cbn. lia. Qed.
Lemma ending_result_ok : forall e, ending_result e <> Panic /\ ending_result e <> OutOfFuel.
Proof. intros []; cbn; split; discriminate. Qed.

(** ** C42: a read buffer is a queue between the stream and those who take bytes out

    Whatever was called, the bytes that came from the stream are exactly those taken out, in the
    same order, followed by those in the buffer; the indices stay in order and inside the
    container, no call panics, [is_empty] and [len] tell what is buffered. *)
Theorem C42_read_buf_fifo : forall S I (D : Decoder S I) P (touch : S -> S -> Prop),
  tame D P -> (forall t s s', P t s -> touch s s' -> P t s') ->
  forall inner r0 s0, P 0%N s0 ->
  forall t log b r s rs, read_history D touch (rb_new inner) r0 s0 t log b r s rs ->
    rd_data r0 = log ++ rb_content b ++ rd_data r /\
    rb_head b <= rb_tail b /\ rb_tail b <= rb_capacity b /\ rb_capacity b = length inner /\
    (rb_is_empty b = true <-> rb_content b = []) /\ rb_len b = Ok (length (rb_content b)) /\
    Forall (fun x => x <> Panic /\ x <> OutOfFuel) rs.
Proof.
  intros S I D P touch TD TP inner r0 s0 P0 t log b r s rs H.
  assert (A : P t s /\ rb_ok b /\ rb_capacity b = length inner /\
    rd_data r0 = log ++ rb_content b ++ rd_data r /\
    Forall (fun x => x <> Panic /\ x <> OutOfFuel) rs).
  { induction H as [ | t log b r s rs b' r' x H (HP & OK & C & Q & F) X
                   | t log b r s rs k b' d H (HP & OK & C & Q & F) X
                   | t log b r s rs k b' x H (HP & OK & C & Q & F) X N
                   | t log b r s rs fuel log' b' s' x H (HP & OK & C & Q & F) T X N
                   | t log b r s rs st H (HP & OK & C & Q & F)
                   | t log b r s rs s' H (HP & OK & C & Q & F) X ].
    - split; [exact P0|]. split; [apply new_ok|]. split; [reflexivity|]. split; [reflexivity|constructor].
    - destruct (fill_spec _ OK X) as (data & r1 & RD & OK' & C' & N' & _ & Cases).
      split; [exact HP|]. split; [exact OK'|]. split; [congruence|].
      assert (E : rd_data r1 = rd_data r' /\ x <> Panic /\ x <> OutOfFuel).
      { destruct Cases as [(_ & -> & -> & _)|(_ & o & e & R1 & E1 & -> & _)].
        - repeat split; discriminate.
        - destruct (rd_read_data _ _ R1) as [E2 _]. destruct o as [[|]|]; cbn in E1; try discriminate E1;
            cbn in E2; split; try exact E2; apply ending_result_ok. }
      destruct E as [E1 E2]. split; [|constructor; assumption].
      rewrite Q, N', (reading_data RD), E1, !app_assoc. reflexivity.
    - rewrite (read_spec k OK) in X. injection X as <- <-.
      destruct (@consume_ok b (Nat.min k (length (rb_content b))) OK) as (OK' & N' & C' & _); [lia|].
      split; [exact HP|]. split; [exact OK'|]. split; [congruence|].
      split; [|constructor; [split; discriminate|exact F]].
      rewrite Q, N', <- !app_assoc. f_equal. rewrite !app_assoc. f_equal.
      rewrite <- (firstn_skipn k (rb_content b)) at 1. f_equal.
      destruct (Nat.le_ge_cases k (length (rb_content b))).
      + rewrite Nat.min_l by assumption. reflexivity.
      + rewrite Nat.min_r, skipn_all, skipn_all2 by lia. reflexivity.
    - rewrite (read_spec k OK) in X. injection X as <- <-. exfalso. eapply N. reflexivity.
    - destruct (decode_buf_spec _ _ _ OK X) as (rr & E1 & E2).
      cbn [logging dec_decode fst snd] in E1.
      destruct (dec_decode D fuel s (rb_content b) (eos_new (st_is_eos (rb_state b)))) as [s1 r1] eqn:E.
      assert (NF : r1 <> OutOfFuel).
      { destruct r1; try discriminate. injection E1 as <- <- <-. exfalso. apply N.
        cbn in E2. apply E2. }
      destruct (TD _ _ _ _ _ _ _ HP T E NF) as (HP' & NP & LE).
      destruct r1 as [n|e| |]; try congruence; injection E1 as <- <- <-; destruct E2 as [-> ->].
      + specialize (LE _ eq_refl). destruct (consume_ok OK LE) as (OK' & N' & C' & _).
        split; [exact HP'|]. split; [exact OK'|]. split; [congruence|].
        split; [|constructor; [split; discriminate|exact F]].
        rewrite Q, N', <- !app_assoc. f_equal. rewrite !app_assoc. f_equal.
        symmetry. apply firstn_skipn.
      + split; [exact HP'|]. split; [exact OK|]. split; [exact C|]. split; [exact Q|].
        constructor; [split; discriminate|exact F].
    - split; [exact HP|]. split; [exact OK|]. split; [exact C|]. split; [exact Q|exact F].
    - split; [eapply TP; eassumption|]. split; [exact OK|]. split; [exact C|]. split; [exact Q|exact F]. }
  destruct A as (HP & OK & C & Q & F). pose proof (indices_le OK) as LE. pose proof OK as [L _].
  split; [exact Q|]. split; [exact LE|]. split; [exact L|]. split; [exact C|].
  split; [apply (content_empty OK)|]. split; [|exact F].
  unfold rb_len. rewrite usize_sub_ok by exact LE. unfold rb_content.
  rewrite stretch_length by exact L. reflexivity.
Qed.
Print Assumptions C42_read_buf_fifo.

(** For every composition of the crate's decoders, under any use of it between the calls that
    involve the buffer. *)
Theorem C42_composed : forall S I (D : Decoder S I) M B q Item Conf Init,
  composed D M B q Item Conf Init -> (phys <= M)%N ->
  forall inner r0 s0, Init s0 ->
  forall t log b r s rs,
    read_history D (fun s s' => Conf s s' \/ exists x, dec_finish D s = (s', x) /\ x <> OutOfFuel)
      (rb_new inner) r0 s0 t log b r s rs ->
    rd_data r0 = log ++ rb_content b ++ rd_data r /\
    rb_head b <= rb_tail b /\ rb_tail b <= rb_capacity b /\ rb_capacity b = length inner /\
    (rb_is_empty b = true <-> rb_content b = []) /\ rb_len b = Ok (length (rb_content b)) /\
    Forall (fun x => x <> Panic /\ x <> OutOfFuel) rs.
Proof.
  intros S I D M B q Item Conf Init CM PM inner r0 s0 I0 t log b r s rs H.
  eapply C42_read_buf_fifo with (P := fun t s => calls D M Conf s0 t s); [| | |exact H].
  - intros t1 s1 fuel buf eos s' x HP T X N.
    assert (EF : eos_fits M buf (eos_new eos)) by (destruct eos; cbn; [lia|exact Logic.I]).
    destruct (C08_no_panic CM I0 HP) as [A _]. destruct (A _ _ _ _ _ T EF X) as [A1 A2].
    split; [|split; assumption]. eapply calls_decode; eassumption.
  - intros t1 s1 s' HP [X|(x & X & N)].
    + eapply calls_set; eassumption.
    + eapply calls_finish; try eassumption. destruct (C08_no_panic CM I0 HP) as (_ & A & _).
      eapply A. exact X.
  - constructor.
Qed.
Print Assumptions C42_composed.

(** A history with a short read, a blocked one, a decoder that leaves bytes, a plain [read], an
    error: the read buffer of 4 bytes in front of a u16 decoder. *)
Example C42_example : exists t log b r s rs,
  read_history U16beDecoder (fun _ _ => False) (rb_new [x00; x00; x00; x00])
    (mkReader [x01; x02; x03; x04; x05; x06] [RdSome 2; RdErr IoWouldBlock; RdErr IoOther])
    (num_dec_new 2) t log b r s rs /\
  log = [x01; x02; x03] /\ rb_content b = [x04; x05; x06] /\
  rs = [Ok tt; Err Other; Ok tt; Ok tt; Ok tt].
Proof.
  set (b0 := rb_new [x00; x00; x00; x00]).
  set (r0 := mkReader [x01; x02; x03; x04; x05; x06] [RdSome 2; RdErr IoWouldBlock; RdErr IoOther]).
  pose proof (rh_start U16beDecoder (fun _ _ => False) b0 r0 (num_dec_new 2)) as H.
  eapply rh_fill in H; [|vm_compute; reflexivity].
  eapply rh_decode with (fuel := 0) in H; [|vm_compute; discriminate|vm_compute; reflexivity|discriminate].
  eapply rh_read with (k := 4) in H; [|vm_compute; reflexivity].
  eapply rh_fill in H; [|vm_compute; reflexivity].
  eapply rh_fill in H; [|vm_compute; reflexivity].
  do 6 eexists. split; [exact H|]. vm_compute. auto.
Qed.

(** ** C43: a write buffer is a queue between those who put bytes in and the stream *)
Theorem C43_write_buf_fifo : forall S I (E : Encoder S I) P (touch : S -> S -> Prop),
  etame E P -> (forall t s s', P t s -> touch s s' -> P t s') ->
  forall inner w0 s0, P 0%N s0 ->
  forall t log b w s rs, write_history E touch (wb_new inner) w0 s0 t log b w s rs ->
    wr_data w0 ++ log = wr_data w ++ wb_content b /\
    wb_head b <= wb_tail b /\ wb_tail b <= wb_capacity b /\ wb_capacity b = length inner /\
    (wb_is_empty b = true <-> wb_content b = []) /\ wb_len b = Ok (length (wb_content b)) /\
    Forall (fun x => x <> Panic /\ x <> OutOfFuel) rs.
Proof.
  intros S I E P touch TD TP inner w0 s0 P0 t log b w s rs H.
  assert (A : P t s /\ wb_ok b /\ wb_capacity b = length inner /\
    wr_data w0 ++ log = wr_data w ++ wb_content b /\
    Forall (fun x => x <> Panic /\ x <> OutOfFuel) rs).
  { assert (Step : forall t log b w s rs fuel log' b' s' x,
      P t s /\ wb_ok b /\ wb_capacity b = length inner /\
      wr_data w0 ++ log = wr_data w ++ wb_content b /\
      Forall (fun x => x <> Panic /\ x <> OutOfFuel) rs ->
      (t + N.of_nat (wb_capacity b - wb_tail b) <= phys)%N ->
      encode_to_write_buf (elogging E) fuel (s, log) b = ((s', log'), b', x) ->
      x <> OutOfFuel ->
      P (t + N.of_nat (wb_capacity b - wb_tail b))%N s' /\ wb_ok b' /\
      wb_capacity b' = length inner /\
      wr_data w0 ++ log' = wr_data w ++ wb_content b' /\
      Forall (fun x => x <> Panic /\ x <> OutOfFuel) (x :: rs)).
    { clear - TD. intros t log b w s rs fuel log' b' s' x (HP & OK & C & Q & F) T X N.
      pose proof (indices_le OK) as LE. pose proof OK as [L HT].
      destruct (encode_buf_spec _ _ _ OK X) as (d' & rr & E1 & I' & H' & S' & K' & E2).
      cbn [elogging enc_encode fst snd] in E1.
      assert (LR : len (skipn (wb_tail b) (wb_inner b)) = N.of_nat (wb_capacity b - wb_tail b)).
      { unfold len. rewrite skipn_length. reflexivity. }
      destruct (enc_encode E fuel s (skipn (wb_tail b) (wb_inner b)) (eos_new (st_is_eos (wb_state b))))
        as [[s1 d1] r1] eqn:EE.
      assert (NF : r1 <> OutOfFuel).
      { destruct r1; try discriminate. injection E1 as <- <- <- <-. exfalso. apply N.
        cbn in E2. apply E2. }
      rewrite <- LR in *.
      destruct (TD _ _ _ _ _ _ _ _ HP T EE NF) as (HP' & NP & LD & LN).
      rewrite skipn_length in LD, LN.
      destruct r1 as [n|e| |]; try congruence; injection E1 as <- <- <- <-; destruct E2 as [-> E2].
      - specialize (LN _ eq_refl). split; [exact HP'|].
        assert (CL : length (wb_inner b') = length (wb_inner b))
          by (rewrite I', app_length, firstn_length; lia).
        split; [unfold wb_ok, indices_ok; rewrite CL, H', E2; lia|].
        split; [unfold wb_capacity in *; congruence|].
        split; [|constructor; [split; discriminate|exact F]].
        unfold wb_content in *. rewrite I', H', E2, stretch_tail_push by lia.
        rewrite !app_assoc, Q. reflexivity.
      - split; [exact HP'|].
        assert (CL : length (wb_inner b') = length (wb_inner b))
          by (rewrite I', app_length, firstn_length; lia).
        split; [unfold wb_ok, indices_ok; rewrite CL, H', E2; lia|].
        split; [unfold wb_capacity in *; congruence|].
        split; [|constructor; [split; discriminate|exact F]].
        unfold wb_content in *. rewrite I', H', E2, stretch_tail by lia. exact Q. }
    induction H as [ | t log b w s rs b' w' x k H IH X
                   | t log b w s rs data b' n H IH X
                   | t log b w s rs data b' x H IH X N
                   | t log b w s rs fuel log' b' s' x H IH T X N
                   | t log b w s rs fuel task log' b' s' x H IH T X N
                   | t log b w s rs st H (HP & OK & C & Q & F)
                   | t log b w s rs s' H (HP & OK & C & Q & F) X ].
    - split; [exact P0|]. split; [apply wnew_ok|]. split; [reflexivity|].
      split; [reflexivity|constructor].
    - destruct IH as (HP & OK & C & Q & F).
      destruct (flush_spec _ OK X) as [(rest & w1 & WR & OK' & I' & N' & _ & Cases) _].
      destruct (writing_data WR) as [WD _].
      split; [exact HP|]. split; [exact OK'|]. split; [unfold wb_capacity in *; congruence|].
      assert (E1 : wr_data w1 = wr_data w' /\ x <> Panic /\ x <> OutOfFuel).
      { destruct Cases as [(_ & -> & -> & _)|(_ & o & e & R1 & E1 & -> & _)].
        - repeat split; discriminate.
        - pose proof (wr_write_data _ _ R1) as E2. destruct o as [[|]|]; cbn in E1; try discriminate E1.
          + destruct E2 as [_ E2]. cbn in E2. rewrite app_nil_r in E2.
            split; [symmetry; exact E2|apply ending_result_ok].
          + split; [symmetry; exact E2|apply ending_result_ok]. }
      destruct E1 as [E1 E2]. split; [|constructor; assumption].
      rewrite N', <- E1, WD. exact Q.
    - destruct IH as (HP & OK & C & Q & F).
      destruct (write_spec data OK) as (b1 & X1 & OK1 & C1 & _ & _ & N1).
      rewrite X1 in X. injection X as <- <-.
      split; [exact HP|]. split; [exact OK1|]. split; [congruence|].
      split; [|constructor; [split; discriminate|exact F]].
      rewrite N1, !app_assoc, Q. f_equal.
      destruct (Nat.le_ge_cases (length data) (wb_capacity b - wb_tail b)).
      + rewrite Nat.min_l, firstn_all, firstn_all2 by lia. reflexivity.
      + rewrite Nat.min_r by lia. reflexivity.
    - destruct IH as (HP & OK & C & Q & F).
      destruct (write_spec data OK) as (b1 & X1 & _).
      rewrite X1 in X. injection X as <- <-. exfalso. eapply N. reflexivity.
    - eapply Step; eassumption.
    - unfold encode_to_write_buf_async in X.
      destruct (encode_to_write_buf (elogging E) fuel (s, log) b) as [[[s1 l1] b1] x1] eqn:E1.
      assert (N1 : x1 <> OutOfFuel).
      { intros ->. injection X as _ _ _ <-. apply N. reflexivity. }
      pose proof (Step _ _ _ _ _ _ _ _ _ _ _ IH T E1 N1) as (HP & OK & C & Q & F).
      destruct x1; injection X as <- <- <- <-; (split; [exact HP|]);
        (split; [exact OK|]); (split; [exact C|]); (split; [exact Q|]); try exact F.
      inversion F; subst. constructor; [split; discriminate|assumption].
    - split; [exact HP|]. split; [exact OK|]. split; [exact C|]. split; [exact Q|exact F].
    - split; [eapply TP; eassumption|]. split; [exact OK|]. split; [exact C|]. split; [exact Q|exact F]. }
  destruct A as (HP & OK & C & Q & F). pose proof (indices_le OK) as LE. pose proof OK as [L _].
  split; [exact Q|]. split; [exact LE|]. split; [exact L|]. split; [exact C|].
  split; [apply (content_empty OK)|]. split; [|exact F].
  unfold wb_len. rewrite usize_sub_ok by exact LE. unfold wb_content.
  rewrite stretch_length by exact L. reflexivity.
Qed.
Print Assumptions C43_write_buf_fifo.

(** For every composition of the crate's encoders. *)
Theorem C43_composed : forall S I (E : Encoder S I) B l (Item : I -> Prop) Conf Init,
  composed_enc E B l Item Conf Init ->
  forall inner w0 s0, Init s0 ->
  forall t log b w s rs,
    write_history E (fun s s' => Conf s s' \/
        exists fuel i x, Item i /\ enc_start E fuel s i = (s', x) /\ x <> OutOfFuel)
      (wb_new inner) w0 s0 t log b w s rs ->
    wr_data w0 ++ log = wr_data w ++ wb_content b /\
    wb_head b <= wb_tail b /\ wb_tail b <= wb_capacity b /\ wb_capacity b = length inner /\
    (wb_is_empty b = true <-> wb_content b = []) /\ wb_len b = Ok (length (wb_content b)) /\
    Forall (fun x => x <> Panic /\ x <> OutOfFuel) rs.
Proof.
  intros S I E B l Item Conf Init CM inner w0 s0 I0 t log b w s rs H.
  eapply C43_write_buf_fifo with (P := fun t s => ecalls E Item Conf s0 t s); [| | |exact H].
  - intros t1 s1 fuel buf eos s' buf' x HP T X N.
    assert (EF : eos_fits u64_max buf (eos_new eos)).
    { destruct eos; cbn; [|exact Logic.I]. unfold phys, u64_max in *. lia. }
    destruct (C09_no_panic CM I0 HP) as [A _]. destruct (A _ _ _ _ _ _ T EF X) as (A1 & A2 & A3).
    split; [eapply ecalls_encode; eassumption|]. split; [exact A1|]. split; [exact A2|].
    intros n En. apply A3. exact En.
  - intros t1 s1 s' HP [X|(fuel & i & x & Hi & X & N)].
    + eapply ecalls_set; eassumption.
    + eapply ecalls_start; try eassumption. destruct (C09_no_panic CM I0 HP) as (_ & A & _).
      eapply A; eassumption.
  - constructor.
Qed.
Print Assumptions C43_composed.

(** A buffer of 3 bytes: a [write] that does not fit entirely, an encoder that finds no room, a
    flush with a short write and a blocked one, then an error, then a complete one. *)
Example C43_example : exists t log b w s rs,
  write_history U16beEncoder (fun s s' => exists i, enc_start U16beEncoder 0 s i = (s', Ok tt))
    (wb_new [x00; x00; x00]) (mkWriter [] [WrSome 1; WrErr IoWouldBlock; WrErr IoOther])
    num_enc_new t log b w s rs /\
  log = [x01; x02; x03; xab; xcd] /\ wr_data w = [x01; x02; x03] /\ wb_content b = [xab; xcd] /\
  rs = [Ok tt; Ok tt; Err Other; Ok tt; Ok tt; Ok tt].
Proof.
  set (b0 := wb_new [x00; x00; x00]).
  set (w0 := mkWriter [] [WrSome 1; WrErr IoWouldBlock; WrErr IoOther]).
  pose proof (wh_start U16beEncoder (fun s s' => exists i, enc_start U16beEncoder 0 s i = (s', Ok tt))
                b0 w0 num_enc_new) as H.
  eapply wh_write with (data := [x01; x02; x03; x04]) in H; [|vm_compute; reflexivity].
  pose proof (@wh_touch _ _ _ _ _ _ _ _ _ _ _ _ _ (fst (enc_start U16beEncoder 0 num_enc_new 43981%N)) H
                    (ex_intro _ 43981%N eq_refl)) as H1. clear H. rename H1 into H.
  eapply wh_encode with (fuel := 0) in H; [|vm_compute; discriminate|vm_compute; reflexivity|discriminate].
  eapply wh_flush in H; [|vm_compute; reflexivity].
  eapply wh_flush in H; [|vm_compute; reflexivity].
  eapply wh_flush in H; [|vm_compute; reflexivity].
  eapply wh_encode with (fuel := 0) in H; [|vm_compute; discriminate|vm_compute; reflexivity|discriminate].
  do 6 eexists. split; [exact H|]. vm_compute. auto.
Qed.

(** ** C44: the stream states report what the stream did

    [fill]: it reads until there is no room or a read gives nothing.  The bytes read are appended
    to what the buffer holds.  It stops in exactly one of two ways: the room is used up, and the
    state is [Normal] (unchanged if there was no room to begin with); or one more read gave 0
    bytes, would block or failed, and the state and the result are those of that outcome. *)
Theorem C44_fill : forall b r b' r' x room,
  rb_ok b -> rb_room b = Ok room -> rb_fill b r = (b', r', x) ->
  exists data r1,
    reading r room data r1 /\ rb_content b' = rb_content b ++ data /\
    rb_ok b' /\ rb_capacity b' = rb_capacity b /\
    (rb_room b' = Ok 0 /\ length data = room /\ r' = r1 /\ x = Ok tt /\
       rb_state b' = match data with [] => rb_state b | _ => StNormal end \/
     length data < room /\
       exists o e, rd_read r1 (room - length data) = (r', o) /\ end_of_read o = Some e /\
         rb_state b' = ending_state e /\ x = ending_result e).
Proof.
  intros b r b' r' x room OK RM H. unfold rb_room in RM. pose proof OK as [L _].
  rewrite usize_sub_ok in RM by exact L. injection RM as <-.
  destruct (fill_spec _ OK H) as (data & r1 & RD & OK' & C' & N' & T' & Cases).
  unfold rb_capacity in *. exists data, r1.
  split; [exact RD|]. split; [exact N'|]. split; [exact OK'|]. split; [exact C'|].
  destruct Cases as [(X1 & X2 & X3 & X4)|(X1 & o & e & X2 & X3 & X4 & X5)].
  - left. split; [|auto]. unfold rb_room. rewrite usize_sub_ok by lia. f_equal. lia.
  - right. split; [exact X1|]. exists o, e. auto.
Qed.
Print Assumptions C44_fill.

(** [flush]: the same, for writes and an emptied buffer. *)
Theorem C44_flush : forall b w b' w' x woken,
  wb_ok b -> wb_flush b w = (b', w', x, woken) ->
  exists w1,
    writing w (wb_content b) (wb_content b') w1 /\ wb_ok b' /\ wb_capacity b' = wb_capacity b /\
    (wb_is_empty b' = true /\ wb_content b' = [] /\ w' = w1 /\ x = Ok tt /\
       wb_state b' = match wb_content b with [] => wb_state b | _ => StNormal end \/
     wb_content b' <> [] /\
       exists o e, wr_write w1 (wb_content b') = (w', o) /\ end_of_write o = Some e /\
         wb_state b' = ending_state e /\ x = ending_result e).
Proof.
  intros b w b' w' x woken OK H.
  destruct (flush_spec _ OK H) as [(rest & w1 & WR & OK' & I' & N' & _ & Cases) _].
  subst rest. exists w1. split; [exact WR|]. split; [exact OK'|].
  split; [unfold wb_capacity; congruence|].
  destruct Cases as [(X1 & X2 & X3 & X4)|(X1 & o & e & X2 & X3 & X4 & X5)].
  - left. split; [|auto]. apply (content_empty OK'). exact X1.
  - right. split; [exact X1|]. exists o, e. auto.
Qed.
Print Assumptions C44_flush.

(** The state is [Error] exactly after an error, unless there was nothing to do. *)
Theorem C44_error : forall b r b' r' x,
  rb_ok b -> rb_is_full b = false -> rb_fill b r = (b', r', x) ->
  (rb_state b' = StError <-> exists e, x = Err e).
Proof.
  intros b r b' r' x OK NF H.
  destruct (fill_spec _ OK H) as (data & r1 & RD & OK' & C' & N' & T' & Cases).
  apply Nat.eqb_neq in NF. pose proof OK as [L _]. unfold rb_capacity in *.
  destruct Cases as [(X1 & X2 & X3 & X4)|(X1 & o & e & X2 & X3 & X4 & X5)].
  - destruct data as [|y l]; [cbn in X1; lia|]. rewrite X3, X4.
    split; [discriminate|intros [? ?]; discriminate].
  - rewrite X4, X5. destruct e; cbn; split; try discriminate; try (intros [? ?]; discriminate); eauto.
Qed.
Print Assumptions C44_error.
Theorem C44_error_flush : forall b w b' w' x woken,
  wb_ok b -> wb_is_empty b = false -> wb_flush b w = (b', w', x, woken) ->
  (wb_state b' = StError <-> exists e, x = Err e).
Proof.
  intros b w b' w' x woken OK NF H.
  destruct (flush_spec _ OK H) as [(rest & w1 & WR & OK' & I' & N' & _ & Cases) _].
  assert (NE : wb_content b <> []).
  { intro X. apply (content_empty OK) in X. unfold wb_is_empty in NF. congruence. }
  destruct Cases as [(X1 & X2 & X3 & X4)|(X1 & o & e & X2 & X3 & X4 & X5)].
  - destruct (wb_content b) as [|y l]; [congruence|]. rewrite X3, X4.
    split; [discriminate|intros [? ?]; discriminate].
  - rewrite X4, X5. destruct e; cbn; split; try discriminate; try (intros [? ?]; discriminate); eauto.
Qed.
Print Assumptions C44_error_flush.
(** The four queries on the state tell exactly which state it is. *)
Theorem C44_queries : forall s,
  (st_is_normal s = true <-> s = StNormal) /\ (st_is_eos s = true <-> s = StEos) /\
  (st_would_block s = true <-> s = StWouldBlock) /\ (st_is_error s = true <-> s = StError).
Proof. intros []; cbn; repeat split; congruence. Qed.
Print Assumptions C44_queries.
(** When there was nothing to do the state is that of an earlier call. *)
Theorem C44_error_stale_refuted : exists b r b' r',
  rb_ok b /\ rb_fill b r = (b', r', Ok tt) /\ rb_state b' = StError.
Proof.
  exists (mkReadBuf [x00] 0 1 StError), (mkReader [] []).
  do 2 eexists. split; [unfold rb_ok, indices_ok; cbn; lia|]. split; reflexivity.
Qed.
Print Assumptions C44_error_stale_refuted.

(** [BufferedIo]: [execute_io] fills, and flushes unless the fill failed; the result is that of the
    first failure.  [is_eos] and [would_block] are the documented combinations. *)
Theorem C44_execute_io : forall b b' x woken,
  rb_ok (bi_rbuf b) -> wb_ok (bi_wbuf b) -> bi_execute b = (b', x, woken) ->
  exists xr, rb_fill (bi_rbuf b) (bi_rd b) = (bi_rbuf b', bi_rd b', xr) /\
    match xr with
    | Ok _ => wb_flush (bi_wbuf b) (bi_wr b) = (bi_wbuf b', bi_wr b', x, woken)
    | _ => x = xr /\ (exists e, xr = Err e) /\ bi_wbuf b' = bi_wbuf b /\ bi_wr b' = bi_wr b
    end /\ rb_ok (bi_rbuf b') /\ wb_ok (bi_wbuf b').
Proof.
  intros b b' x woken OK OKW H. unfold bi_execute in H.
  destruct (rb_fill (bi_rbuf b) (bi_rd b)) as [[rb rd] xr] eqn:F.
  exists xr. destruct (fill_spec _ OK F) as (data & r1 & RD & OK' & C' & N' & T' & Cases).
  assert (E : xr = Ok tt \/ exists e, xr = Err e).
  { destruct Cases as [(_ & _ & -> & _)|(_ & o & e & _ & _ & -> & _)]; auto.
    destruct e; cbn; eauto. }
  destruct E as [->|[e ->]].
  - destruct (wb_flush (bi_wbuf b) (bi_wr b)) as [[[wb wr] r] k] eqn:W.
    injection H as <- <- <-. cbn [bi_rbuf bi_rd bi_wbuf bi_wr].
    destruct (flush_spec _ OKW W) as [(rest & w1 & WR & OKW' & _) _]. auto.
  - injection H as <- <- <-. cbn [bi_rbuf bi_rd bi_wbuf bi_wr]. eauto 10.
Qed.
Print Assumptions C44_execute_io.
Theorem C44_is_eos : forall b,
  bi_is_eos b = true <-> rb_state (bi_rbuf b) = StEos \/ wb_state (bi_wbuf b) = StEos.
Proof.
  intro b. unfold bi_is_eos.
  destruct (rb_state (bi_rbuf b)), (wb_state (bi_wbuf b)); cbn;
    split; try tauto; try discriminate; intros [X|X]; discriminate.
Qed.
Print Assumptions C44_is_eos.
Theorem C44_would_block : forall b, wb_ok (bi_wbuf b) ->
  (bi_would_block b = true <->
   rb_state (bi_rbuf b) = StWouldBlock /\
   (wb_content (bi_wbuf b) = [] \/ wb_state (bi_wbuf b) = StWouldBlock)).
Proof.
  intros b OK. unfold bi_would_block. rewrite <- (content_empty OK). fold (wb_is_empty (bi_wbuf b)).
  destruct (rb_state (bi_rbuf b)), (wb_is_empty (bi_wbuf b)), (wb_state (bi_wbuf b)); cbn;
    split; try tauto; try discriminate; intros [X [Y|Y]]; discriminate.
Qed.
Print Assumptions C44_would_block.

(** A buffer of 4 with one byte in it, a stream that gives 2 bytes and then blocks; a flush that is
    accepted in part and then finds the stream closed. *)
Example C44_example :
  let b := mkReadBuf [x07; x00; x00; x00] 0 1 StNormal in
  let r := mkReader [x01; x02; x03] [RdSome 1; RdErr IoWouldBlock] in
  (rb_ok b /\ rb_room b = Ok 3) /\
  rb_fill b r = (mkReadBuf [x07; x01; x02; x00] 0 3 StWouldBlock, mkReader [x03] [], Ok tt) /\
  let wb := mkWriteBuf [x01; x02; x03] 0 3 StNormal (Some 5) in
  wb_ok wb /\
  wb_flush wb (mkWriter [] [WrSome 0; WrZero]) =
    (mkWriteBuf [x01; x02; x03] 1 3 StEos (Some 5), mkWriter [x01] [], Ok tt, None).
Proof.
  cbv zeta. split; [split; [unfold rb_ok, indices_ok; cbn; lia|reflexivity]|].
  split; [reflexivity|]. split; [unfold wb_ok, indices_ok; cbn; lia|reflexivity].
Qed.

(** ** C45: polling is the same as blocking I/O, "pending" read as "would block" *)
Lemma poll_fill_loop : forall fuel b r b' r' p,
  ready_means_ready r -> rb_poll_fill_loop fuel b r = (b', r', p) ->
  rb_fill_loop fuel b (sync_reader r) = (b', sync_reader r', sync_result p) /\
  ready_means_ready r' /\
  (p = Pending -> rb_state b' = StWouldBlock) /\
  (rb_state b' = StWouldBlock -> p = Pending \/ rb_state b = StWouldBlock /\ b' = b /\ r' = r).
Proof.
  induction fuel as [|fuel IH]; intros b r b' r' p RR H; cbn [rb_poll_fill_loop] in H;
    cbn [rb_fill_loop]; destruct (rb_is_full b).
  - injection H as <- <- <-. repeat split; auto; discriminate.
  - injection H as <- <- <-. repeat split; auto; discriminate.
  - injection H as <- <- <-. repeat split; auto; discriminate.
  - destruct (usize_sub (length (rb_inner b)) (rb_tail b)) as [room|];
      [|injection H as <- <- <-; repeat split; auto; discriminate].
    destruct r as [data plan]. unfold poll_read in H. cbn [ar_plan ar_data] in H.
    assert (RT : forall x q, plan = x :: q -> ready_means_ready (mkAReader data q) /\
                   x <> Some (RdErr IoWouldBlock)).
    { intros x q ->. unfold ready_means_ready in *. cbn [ar_plan] in *. cbn in RR. tauto. }
    assert (RI : forall d q, ready_means_ready (mkAReader data q) -> ready_means_ready (mkAReader d q))
      by (intros d q X; exact X).
    unfold sync_reader. cbn [ar_plan ar_data]. unfold rd_read.
    destruct plan as [|[[n| |e]|] q]; cbn [map rd_plan rd_data rd_read] in *.
    + destruct (firstn room data) as [|y l] eqn:FE.
      * injection H as <- <- <-. repeat split; auto; discriminate.
      * apply IH in H; [|exact RR]. destruct H as (H1 & H2 & H3 & H4).
        split; [exact H1|]. split; [exact H2|]. split; [exact H3|].
        intro X. destruct (H4 X) as [Y|(Y & _)]; [auto|discriminate Y].
    + destruct (RT _ _ eq_refl) as [RQ _].
      destruct (firstn (Nat.min room (S n)) data) as [|y l] eqn:FE.
      * injection H as <- <- <-. repeat split; auto; discriminate.
      * apply IH in H; [|exact RQ]. destruct H as (H1 & H2 & H3 & H4).
        split; [exact H1|]. split; [exact H2|]. split; [exact H3|].
        intro X. destruct (H4 X) as [Y|(Y & _)]; [auto|discriminate Y].
    + destruct (RT _ _ eq_refl) as [RQ _]. injection H as <- <- <-. repeat split; auto; discriminate.
    + destruct (RT _ _ eq_refl) as [RQ NB]. injection H as <- <- <-.
      destruct e; try congruence; repeat split; auto; discriminate.
    + destruct (RT _ _ eq_refl) as [RQ _]. injection H as <- <- <-. repeat split; auto.
Qed.

(** [poll_fill] leaves the buffer and the stream as [fill] does, and has the same result; it is
    [Pending] exactly when the stream was, which is when the state becomes [WouldBlock]. *)
Theorem C45_poll_fill : forall b r b' r' p,
  ready_means_ready r -> rb_poll_fill b r = (b', r', p) ->
  rb_fill b (sync_reader r) = (b', sync_reader r', sync_result p) /\
  (p = Pending -> rb_state b' = StWouldBlock) /\
  (rb_state b' = StWouldBlock -> p = Pending \/ rb_state b = StWouldBlock /\ b' = b /\ r' = r).
Proof.
  intros b r b' r' p RR H. destruct (poll_fill_loop _ _ RR H) as (A & _ & B & C).
  split; [exact A|]. split; [exact B|exact C].
Qed.
Print Assumptions C45_poll_fill.

Lemma poll_flush_loop : forall fuel b w b' w' p,
  wready_means_ready w -> wb_poll_flush_loop fuel b w = (b', w', p) ->
  wb_flush_loop fuel b (sync_writer w) = (b', sync_writer w', sync_result p) /\
  (p = Pending -> wb_state b' = StWouldBlock) /\
  (wb_state b' = StWouldBlock -> p = Pending \/ wb_state b = StWouldBlock /\ b' = b /\ w' = w).
Proof.
  induction fuel as [|fuel IH]; intros b w b' w' p RR H; cbn [wb_poll_flush_loop] in H;
    cbn [wb_flush_loop]; destruct (wb_is_empty b).
  - injection H as <- <- <-. repeat split; auto; discriminate.
  - injection H as <- <- <-. repeat split; auto; discriminate.
  - injection H as <- <- <-. repeat split; auto; discriminate.
  - destruct (window (wb_inner b) (wb_head b) (wb_tail b)) as [d|];
      [|injection H as <- <- <-; repeat split; auto; discriminate].
    destruct w as [data plan]. unfold poll_write in H. cbn [aw_plan aw_data] in H.
    assert (RT : forall x q, plan = x :: q -> wready_means_ready (mkAWriter data q) /\
                   x <> Some (WrErr IoWouldBlock)).
    { intros x q ->. unfold wready_means_ready in *. cbn [aw_plan] in *. cbn in RR. tauto. }
    assert (SA : forall n, wb_state (wb_advance b n) = StNormal).
    { intro n. unfold wb_advance. destruct (wb_head b + n =? wb_tail b); reflexivity. }
    unfold sync_writer. cbn [aw_plan aw_data]. unfold wr_write.
    destruct plan as [|[[n| |e]|] q]; cbn [map wr_plan wr_data wr_write] in *.
    + destruct (length d) as [|m] eqn:FE.
      * injection H as <- <- <-. repeat split; auto; discriminate.
      * apply IH in H; [|exact RR]. destruct H as (H1 & H3 & H4).
        split; [exact H1|]. split; [exact H3|].
        intro X. destruct (H4 X) as [Y|(Y & _)]; [auto|]. rewrite SA in Y. discriminate Y.
    + destruct (RT _ _ eq_refl) as [RQ _].
      destruct (Nat.min (length d) (S n)) as [|m] eqn:FE.
      * injection H as <- <- <-. repeat split; auto; discriminate.
      * apply IH in H; [|exact RQ]. destruct H as (H1 & H3 & H4).
        split; [exact H1|]. split; [exact H3|].
        intro X. destruct (H4 X) as [Y|(Y & _)]; [auto|]. rewrite SA in Y. discriminate Y.
    + injection H as <- <- <-. repeat split; auto; discriminate.
    + destruct (RT _ _ eq_refl) as [RQ NB]. injection H as <- <- <-.
      destruct e; try congruence; repeat split; auto; discriminate.
    + injection H as <- <- <-. repeat split; auto.
Qed.

Theorem C45_poll_flush : forall b w b' w' p,
  wready_means_ready w -> wb_poll_flush b w = (b', w', p) ->
  (exists woken, wb_flush b (sync_writer w) = (b', sync_writer w', sync_result p, woken)) /\
  (p = Pending -> wb_state b' = StWouldBlock) /\
  (wb_state b' = StWouldBlock -> p = Pending \/ wb_state b = StWouldBlock /\ b' = b /\ w' = w).
Proof.
  intros b w b' w' p RR H. destruct (poll_flush_loop _ _ RR H) as (A & B & C).
  split; [|split; [exact B|exact C]]. unfold wb_flush. rewrite A. eauto.
Qed.
Print Assumptions C45_poll_flush.

(** A stream that answers "ready: would block" all the same is blocked for [fill] and broken for
    [poll_fill]. *)
Theorem C45_ready_would_block_refuted : forall b data plan,
  rb_ok b -> rb_is_full b = false ->
  rb_fill b (mkReader data (RdErr IoWouldBlock :: plan)) =
    (rb_set_state b StWouldBlock, mkReader data plan, Ok tt) /\
  forall plan', rb_poll_fill b (mkAReader data (Some (RdErr IoWouldBlock) :: plan')) =
    (rb_set_state b StError, mkAReader data plan', Ready (Err Other)).
Proof.
  intros b data plan [L _] NF. unfold rb_fill, rb_poll_fill.
  cbn [rb_fill_loop rb_poll_fill_loop]. rewrite NF, usize_sub_ok by exact L.
  split; reflexivity.
Qed.
Print Assumptions C45_ready_would_block_refuted.

(** [execute_io_poll] drives both directions whatever the first one does, and is [Pending] if both
    are; an error of the reading side comes before one of the writing side. *)
Theorem C45_execute_io_poll : forall b b' p, ab_execute_poll b = (b', p) ->
  exists pr pw,
    rb_poll_fill (ab_rbuf b) (ab_rd b) = (ab_rbuf b', ab_rd b', pr) /\
    wb_poll_flush (ab_wbuf b) (ab_wr b) = (ab_wbuf b', ab_wr b', pw) /\
    (p = Pending <-> pr = Pending /\ pw = Pending) /\
    (forall e, p = Ready (Err e) <->
       pr = Ready (Err e) \/ (pr = Pending \/ pr = Ready (Ok tt)) /\ pw = Ready (Err e)).
Proof.
  intros b b' p H. unfold ab_execute_poll in H.
  destruct (rb_poll_fill (ab_rbuf b) (ab_rd b)) as [[rb rd] pr] eqn:R.
  destruct (wb_poll_flush (ab_wbuf b) (ab_wr b)) as [[wb wr] pw] eqn:W.
  injection H as <- <-. exists pr, pw. cbn [ab_rbuf ab_rd ab_wbuf ab_wr].
  split; [reflexivity|]. split; [reflexivity|]. split.
  - destruct pr as [|[[]|?| |]], pw as [|[[]|?| |]]; split; try discriminate;
      try (intros [? ?]; discriminate); auto.
  - intro e. destruct pr as [|[[]|?| |]], pw as [|[[]|?| |]]; split; try discriminate; intro X;
      repeat match goal with
             | X : _ \/ _ |- _ => destruct X as [X|X]
             | X : _ /\ _ |- _ => destruct X
             end; try discriminate; auto.
Qed.
Print Assumptions C45_execute_io_poll.

(** It does what [execute_io] does, except that [execute_io] does not get to the flush when the
    fill fails. *)
Definition sync_io (b : ABufferedIo) : BufferedIo :=
  mkBufferedIo (sync_reader (ab_rd b)) (sync_writer (ab_wr b)) (ab_rbuf b) (ab_wbuf b).
Theorem C45_execute_io_same : forall b b' p,
  ready_means_ready (ab_rd b) -> wready_means_ready (ab_wr b) -> ab_execute_poll b = (b', p) ->
  exists b1 x woken, bi_execute (sync_io b) = (b1, x, woken) /\
    bi_rbuf b1 = ab_rbuf b' /\ bi_rd b1 = sync_reader (ab_rd b') /\
    (snd (rb_fill (bi_rbuf (sync_io b)) (bi_rd (sync_io b))) = Ok tt ->
       b1 = sync_io b' /\ x = sync_result p) /\
    (forall e, snd (rb_fill (bi_rbuf (sync_io b)) (bi_rd (sync_io b))) = Err e ->
       p = Ready (Err e) /\ x = Err e).
Proof.
  intros b b' p RR WR H. unfold ab_execute_poll in H.
  destruct (rb_poll_fill (ab_rbuf b) (ab_rd b)) as [[rb rd] pr] eqn:R.
  destruct (wb_poll_flush (ab_wbuf b) (ab_wr b)) as [[wb wr] pw] eqn:W.
  injection H as <- <-.
  destruct (C45_poll_fill _ RR R) as (FR & _). destruct (C45_poll_flush _ WR W) as ([k FW] & _).
  unfold bi_execute, sync_io. cbn [bi_rbuf bi_rd bi_wbuf bi_wr ab_rbuf ab_rd ab_wbuf ab_wr].
  rewrite FR, FW. cbn [snd].
  destruct pr as [|[[]|?| |]]; cbn [sync_result]; do 3 eexists; (split; [reflexivity|]);
    cbn [bi_rbuf bi_rd]; (split; [reflexivity|]); (split; [reflexivity|]); split.
  - intros _. split; [reflexivity|]. destruct pw as [|[[]|?| |]]; reflexivity.
  - intros e X. discriminate X.
  - intros _. split; [reflexivity|]. destruct pw as [|[[]|?| |]]; reflexivity.
  - intros e X. discriminate X.
  - intro X. discriminate X.
  - intros e X. injection X as ->. destruct pw as [|[[]|?| |]]; split; reflexivity.
  - intro X. discriminate X.
  - intros e X. discriminate X.
  - intro X. discriminate X.
  - intros e X. discriminate X.
Qed.
Print Assumptions C45_execute_io_same.

(** The waker: [encode_to_write_buf_async] stores the caller's, and only a successful call does;
    nothing else changes it; [flush] wakes it if it succeeds and there is room afterwards.
    ([poll_flush] has no wake-up in it at all: src/io_async.rs:55-91.) *)
Theorem C45_waker : forall S I (E : Encoder S I) b w, wb_ok b ->
  (forall fuel s task s' b' x, encode_to_write_buf_async E fuel s b task = (s', b', x) ->
     wb_waker b' = match x with Ok _ => Some task | _ => wb_waker b end) /\
  (forall fuel s s' b' x, encode_to_write_buf E fuel s b = (s', b', x) -> wb_waker b' = wb_waker b) /\
  (forall data, wb_waker (fst (wb_write b data)) = wb_waker b) /\
  (forall b' w' x woken, wb_flush b w = (b', w', x, woken) ->
     wb_waker b' = wb_waker b /\
     (woken = wb_waker b /\ x = Ok tt /\ wb_room b' <> Ok 0 \/
      woken = None /\ ((exists e, x = Err e) \/ wb_room b' = Ok 0))).
Proof.
  intros S I E b w OK. split; [|split; [|split]].
  - intros fuel s task s' b' x H. unfold encode_to_write_buf_async in H.
    destruct (encode_to_write_buf E fuel s b) as [[s1 b1] x1] eqn:E1.
    destruct (encode_buf_spec _ _ _ OK E1) as (d' & rr & _ & _ & _ & _ & K & _).
    destruct x1; injection H as <- <- <-; cbn; auto.
  - intros fuel s s' b' x H. destruct (encode_buf_spec _ _ _ OK H) as (d' & rr & _ & _ & _ & _ & K & _).
    exact K.
  - intro data. destruct (write_spec data OK) as (b' & -> & _ & _ & _ & K & _). exact K.
  - intros b' w' x woken H.
    destruct (flush_spec _ OK H) as [(rest & w1 & WR & OK' & I' & N' & K & Cases) KW].
    split; [exact K|]. pose proof OK' as [L' _].
    assert (RM : wb_room b' = Ok (length (wb_inner b') - wb_tail b')).
    { unfold wb_room. rewrite usize_sub_ok by exact L'. reflexivity. }
    assert (X : x = Ok tt \/ exists e, x = Err e).
    { destruct Cases as [(_ & _ & -> & _)|(_ & o & e & _ & _ & -> & _)]; auto.
      destruct e; cbn; eauto. }
    destruct X as [->|[e ->]].
    + destruct (wb_tail b' =? length (wb_inner b')) eqn:F.
      * right. split; [exact KW|]. right. rewrite RM. f_equal. apply Nat.eqb_eq in F. lia.
      * left. split; [rewrite KW; exact K|]. split; [reflexivity|]. rewrite RM.
        apply Nat.eqb_neq in F. intro X. injection X as X. lia.
    + right. split; [exact KW|]. left. eauto.
Qed.
Print Assumptions C45_waker.

(** A full buffer and a waiting task: the data goes out and there is room, [flush] wakes the task.
    Polling with a stream that is pending after one byte. *)
Example C45_example :
  let wb := mkWriteBuf [x01; x02] 0 2 StNormal (Some 7) in
  let aw := mkAWriter [] [Some (WrSome 0); None] in
  wb_ok wb /\ wready_means_ready aw /\
  wb_flush wb (mkWriter [] []) = (mkWriteBuf [x01; x02] 0 0 StNormal (Some 7), mkWriter [x01; x02] [], Ok tt, Some 7) /\
  wb_poll_flush wb aw = (mkWriteBuf [x01; x02] 1 2 StWouldBlock (Some 7), mkAWriter [x01] [], Pending) /\
  let ar := mkAReader [x0a; x0b] [Some (RdSome 0); None; Some RdZero] in
  ready_means_ready ar /\
  ab_execute_poll (mkABufferedIo ar aw (rb_new [x00; x00; x00]) wb) =
    (mkABufferedIo (mkAReader [x0b] [Some RdZero]) (mkAWriter [x01] [])
       (mkReadBuf [x0a; x00; x00] 0 1 StWouldBlock) (mkWriteBuf [x01; x02] 1 2 StWouldBlock (Some 7)),
     Pending).
Proof.
  cbv zeta. split; [unfold wb_ok, indices_ok; cbn; lia|].
  split; [cbv; intuition discriminate|]. split; [reflexivity|]. split; [reflexivity|].
  split; [cbv; intuition discriminate|]. reflexivity.
Qed.
