(** * Proofs for C92: two peers over [BufferedIo]. *)
From Coq Require Import Lia ZifyBool ZifyNat ZifyN.
From Verif Require Import Duplex LinkProofs Link IoProofs Lib Props_Io.
Set Implicit Arguments.

Definition splan (rp : list (option RdPlan)) : list RdPlan :=
  map (fun p => match p with None => RdErr IoWouldBlock | Some x => x end) rp.
Definition swplan (wp : list (option WrPlan)) : list WrPlan :=
  map (fun p => match p with None => WrErr IoWouldBlock | Some x => x end) wp.
Definition gives (p : list RdPlan) : Prop := match p with [] | RdSome _ :: _ => True | _ => False end.
Definition accepts_some (p : list WrPlan) : Prop := match p with [] | WrSome _ :: _ => True | _ => False end.

Section One.
Context {Se Sd A : Type}.
Variables (E : Encoder Se A) (D : Decoder Sd A) (fuel : nat).
Notation link := (link Se Sd A).

Definition same (l l' : link) : Prop :=
  l_todo l' = l_todo l /\ enc_idle E (l_enc l') = enc_idle E (l_enc l) /\
  wb_content (l_wbuf l') = wb_content (l_wbuf l) /\ l_stream l' = l_stream l /\
  rb_content (l_rbuf l') = rb_content (l_rbuf l).
Lemma bytes_dec : forall a b : list byte, {a = b} + {a <> b}.
Proof. apply list_eq_dec. intros x y. destruct (Byte.eqb x y) eqn:Q; [left; now apply byte_dec_bl|right]. intros ->. rewrite byte_dec_lb in Q; congruence. Qed.
Lemma moved : forall l l', l_todo l' = l_todo l -> moves E l l' \/ same l l'.
Proof.
  intros l l' T. unfold moves, same.
  destruct (Bool.bool_dec (enc_idle E (l_enc l')) (enc_idle E (l_enc l))); [|left; auto].
  destruct (bytes_dec (wb_content (l_wbuf l')) (wb_content (l_wbuf l))); [|left; auto].
  destruct (bytes_dec (l_stream l') (l_stream l)); [|left; auto].
  destruct (bytes_dec (rb_content (l_rbuf l')) (rb_content (l_rbuf l))); [|left; auto 6].
  right. auto.
Qed.
Lemma act_moved : forall a l l' r, act E D fuel a l = Some (l', r) -> moves E l l' \/ same l l'.
Proof.
  intros [| |plan|plan|] [todo enc wb str rb dec got] l' r H; cbn [act l_todo l_enc l_wbuf l_stream l_rbuf l_dec l_got] in H.
  - destruct todo as [|i todo]; [discriminate|]. destruct (enc_idle E enc); [|discriminate].
    destruct (enc_start E fuel enc i) as [s' r']. injection H as <- <-. left. left. cbn.
    intro Q. apply (f_equal (@length _)) in Q. cbn in Q. lia.
  - destruct (encode_to_write_buf E fuel enc wb) as [[? ?] ?]. injection H as <- <-. apply moved. reflexivity.
  - destruct (existsb _ plan); [discriminate|].
    destruct (wb_flush wb (mkWriter str plan)) as [[[? ?] ?] ?]. injection H as <- <-. apply moved. reflexivity.
  - destruct (rb_fill rb (mkReader str plan)) as [[? ?] ?].
    destruct (st_is_eos _ && negb _); [discriminate|]. injection H as <- <-. apply moved. reflexivity.
  - destruct (st_is_eos (rb_state rb) && rb_is_empty rb); [discriminate|].
    destruct (decode_from_read_buf D fuel dec rb) as [[s' rb'] [x|k| |]]; try (injection H as <- <-; apply moved; reflexivity).
    destruct (dec_idle D s'); [|injection H as <- <-; apply moved; reflexivity].
    destruct (dec_finish D s') as [s2 [i|k| |]]; injection H as <- <-; apply moved; reflexivity.
Qed.
Lemma act_got : forall a l l' r, act E D fuel a l = Some (l', r) -> exists news, l_got l' = l_got l ++ news.
Proof.
  intros [| |plan|plan|] [todo enc wb str rb dec got] l' r H; cbn [act l_todo l_enc l_wbuf l_stream l_rbuf l_dec l_got] in H.
  - destruct todo as [|i todo]; [discriminate|]. destruct (enc_idle E enc); [|discriminate].
    destruct (enc_start E fuel enc i) as [s' r']. injection H as <- <-. exists []. now rewrite app_nil_r.
  - destruct (encode_to_write_buf E fuel enc wb) as [[? ?] ?]. injection H as <- <-. exists []. now rewrite app_nil_r.
  - destruct (existsb _ plan); [discriminate|].
    destruct (wb_flush wb (mkWriter str plan)) as [[[? ?] ?] ?]. injection H as <- <-. exists []. now rewrite app_nil_r.
  - destruct (rb_fill rb (mkReader str plan)) as [[? ?] ?].
    destruct (st_is_eos _ && negb _); [discriminate|]. injection H as <- <-. exists []. now rewrite app_nil_r.
  - destruct (st_is_eos (rb_state rb) && rb_is_empty rb); [discriminate|].
    destruct (decode_from_read_buf D fuel dec rb) as [[s' rb'] [x|k| |]]; try (injection H as <- <-; exists []; now rewrite app_nil_r).
    destruct (dec_idle D s'); [|injection H as <- <-; exists []; now rewrite app_nil_r].
    destruct (dec_finish D s') as [s2 [i|k| |]]; injection H as <- <-; try (exists []; now rewrite app_nil_r).
    exists [i]. reflexivity.
Qed.

Lemma act_keeps : forall a l l' r, act E D fuel a l = Some (l', r) -> a <> ADecode ->
  forall news, l_got l' = l_got l ++ news -> news = [].
Proof.
  intros a l l' r H N news G. assert (Q : l_got l' = l_got l).
  { destruct a as [| |plan|plan|], l as [todo enc wb str rb dec got]; cbn [act l_todo l_enc l_wbuf l_stream l_rbuf l_dec l_got] in H.
    - destruct todo as [|i todo]; [discriminate|]. destruct (enc_idle E enc); [|discriminate].
      destruct (enc_start E fuel enc i) as [s' r']. injection H as <- <-. reflexivity.
    - destruct (encode_to_write_buf E fuel enc wb) as [[? ?] ?]. injection H as <- <-. reflexivity.
    - destruct (existsb _ plan); [discriminate|].
      destruct (wb_flush wb (mkWriter str plan)) as [[[? ?] ?] ?]. injection H as <- <-. reflexivity.
    - destruct (rb_fill rb (mkReader str plan)) as [[? ?] ?].
      destruct (st_is_eos _ && negb _); [discriminate|]. injection H as <- <-. reflexivity.
    - congruence. }
  rewrite Q in G. apply (f_equal (@length _)) in G. rewrite app_length in G. destruct news; [auto|cbn in G; lia].
Qed.

(** What is used of the invariant of a link. *)
Record lively (items : list A) (J : nat -> link -> Prop) : Prop := {
  lv_act : forall n l a l' r, J n l -> act E D fuel a l = Some (l', r) ->
    outcome_ok a r /\ exists n', J n' l' /\ n' <= n /\ (moves E l l' -> n' < n);
  lv_encode : forall n l l' r, J n l -> act E D fuel AEncode l = Some (l', r) ->
    enc_idle E (l_enc l) = false -> wb_content (l_wbuf l) = [] -> moves E l l';
  lv_flush : forall n l l' r plan, J n l -> act E D fuel (AFlush plan) l = Some (l', r) ->
    accepts_some plan -> wb_content (l_wbuf l) <> [] -> moves E l l';
  lv_fill : forall n l l' r plan, J n l -> act E D fuel (AFill plan) l = Some (l', r) ->
    gives plan -> l_stream l <> [] -> rb_content (l_rbuf l) = [] -> moves E l l';
  lv_decode : forall n l l' r, J n l -> act E D fuel ADecode l = Some (l', r) ->
    rb_content (l_rbuf l) <> [] -> moves E l l';
  lv_got : forall n l l' r news, J n l -> act E D fuel ADecode l = Some (l', r) ->
    l_got l' = l_got l ++ news -> news <> [] -> moves E l l';
  lv_done : forall n l, J n l -> l_todo l = [] -> enc_idle E (l_enc l) = true ->
    wb_content (l_wbuf l) = [] -> l_stream l = [] -> rb_content (l_rbuf l) = [] -> l_got l = items;
  lv_prefix : forall n l, J n l -> exists pend, items = l_got l ++ pend;
  lv_wb : forall n l, J n l -> wb_ok (l_wbuf l);
  lv_rb : forall n l, J n l -> rb_ok (l_rbuf l);
  lv_eos : forall n l, J n l -> rb_state (l_rbuf l) = StEos ->
    l_todo l = [] /\ enc_idle E (l_enc l) = true /\ wb_content (l_wbuf l) = [] /\ l_stream l = []
}.

Definition adv (J : nat -> link -> Prop) (n : nat) (l : link) (n' : nat) (l' : link) : Prop :=
  J n' l' /\ n' <= n /\ (n' = n -> same l l') /\
  exists news, l_got l' = l_got l ++ news /\ (n' = n -> news = []).
Lemma same_refl : forall l, same l l.
Proof. unfold same. auto 6. Qed.
Lemma adv_refl : forall (J : nat -> link -> Prop) n l, J n l -> adv J n l n l.
Proof. intros. split; [auto|]. split; [auto|]. split; [intros; apply same_refl|]. exists []. split; [now rewrite app_nil_r|auto]. Qed.
Lemma adv_trans : forall J n l n1 l1 n2 l2, adv J n l n1 l1 -> adv J n1 l1 n2 l2 -> adv J n l n2 l2.
Proof.
  intros J n l n1 l1 n2 l2 (_ & L1 & S1 & (w1 & G1 & E1)) (J2 & L2 & S2 & (w2 & G2 & E2)). split; [auto|]. split; [lia|]. split.
  - intros Q. assert (n1 = n) by lia. assert (n2 = n1) by lia.
    destruct (S1 H) as (a & b & c & d & e), (S2 H0) as (a' & b' & c' & d' & e'). unfold same. repeat split; congruence.
  - exists (w1 ++ w2). rewrite app_assoc. split; [congruence|]. intros Q. rewrite E1, E2 by lia. reflexivity.
Qed.
Lemma act_adv : forall items J n l a l' r, lively items J -> J n l -> act E D fuel a l = Some (l', r) ->
  outcome_ok a r /\ exists n', adv J n l n' l' /\ (moves E l l' -> n' < n).
Proof.
  intros items J n l a l' r LV Jn H. destruct (@lv_act _ _ LV _ _ _ _ _ Jn H) as (O & n' & Jn' & L & M). split; [exact O|].
  exists n'. split; [|exact M]. split; [auto|]. split; [auto|]. split.
  2:{ destruct (act_got _ _ H) as (news & G). exists news. split; [exact G|]. intros ->.
      destruct news as [|i news]; [reflexivity|]. exfalso.
      assert (NE : i :: news <> []) by discriminate.
      destruct a; try (elim NE; refine (@act_keeps _ _ _ _ H _ _ G); discriminate).
      specialize (M (@lv_got _ _ LV _ _ _ _ _ Jn H G NE)). lia. }
  intros ->. destruct (act_moved _ _ H) as [X|X]; [apply M in X; lia|exact X].
Qed.
End One.
Arguments act_adv {Se Sd A E D fuel items J n l a l' r} _ _ _.
Arguments lv_rb {Se Sd A E D fuel items J} _ {n l} _.
Arguments lv_wb {Se Sd A E D fuel items J} _ {n l} _.

(** The invariant of [LinkProofs] is such a one. *)
Lemma inv_lively : forall Se Sd A (E : Encoder Se A) (D : Decoder Sd A) F Pe Pd fuel wcap rcap items w0 i0,
  decodes D SD F Pd Pd -> (forall s, Pd s -> dec_idle D s = false) -> rests E Pe -> rcap < fuel ->
  F w0 i0 /\ w0 <> [] -> 0 < wcap -> 0 < rcap ->
  lively E D fuel items (inv E D F Pe Pd fuel wcap rcap items).
Proof.
  intros Se Sd A E D F Pe Pd fuel wcap rcap items w0 i0 HD HB HR HF H0 PW PR. constructor.
  - intros. eapply any_act; eauto.
  - intros n l l' r IV X ID CW. destruct (encode_act HB HR HF IV X) as (_ & _ & MV). auto.
  - intros n [todo enc wb str rb dec got] l' r plan IV X G CW.
    cbn [act l_todo l_enc l_wbuf l_stream l_rbuf l_dec l_got] in *.
    destruct (existsb _ plan); [discriminate|].
    destruct (wb_flush wb (mkWriter str plan)) as [[[wb' w'] x] k] eqn:Y. injection X as <- <-.
    pose proof (iv_wb IV) as WB. cbn in WB.
    destruct (flush_spec _ WB Y) as [(rest & w1 & WR & OK' & I' & C' & _ & Cases) _].
    right. right. left. cbn. rewrite C'. inversion WR as [|? ? m w2 ? ? Z1 Z2]; subst.
    + exfalso. destruct Cases as [(Z & _)|(_ & o & e & Z1 & Z2 & _)].
      * congruence.
      * match goal with Q : wb_content wb = _ |- _ => rewrite <- Q in Z1 end.
        unfold wr_write in Z1. cbn in Z1. destruct (wb_content wb) as [|y c]; [congruence|].
        destruct plan as [|[m| |e'] plan]; try contradiction; cbn in Z1; injection Z1 as <- <-; discriminate Z2.
    + destruct (writing_data Z2) as [_ WL]. intros Q. rewrite Q in WL. rewrite skipn_length in WL.
      destruct (wb_content wb); [congruence|]. cbn in WL. lia.
  - intros n [todo enc wb str rb dec got] l' r plan IV X G CS CR.
    cbn [act l_todo l_enc l_wbuf l_stream l_rbuf l_dec l_got] in *.
    destruct (rb_fill rb (mkReader str plan)) as [[rb' r'] x] eqn:Y.
    destruct (st_is_eos _ && negb _); [discriminate|]. injection X as <- <-.
    pose proof (iv_rb IV) as RB. pose proof (iv_rcap IV) as RC. cbn in RB, RC.
    destruct (fill_spec _ RB Y) as (data & r1 & RD & OK' & C' & N' & _ & Cases).
    assert (T0 : rb_tail rb = 0) by (apply Nat.eqb_eq, (content_empty RB); exact CR).
    rewrite T0, Nat.sub_0_r in *.
    right. right. right. right. cbn. rewrite N', CR. cbn.
    inversion RD as [Z|? ? y ? ? ? ? Z1 Z2]; subst; [|discriminate].
    exfalso. cbn [length] in Cases. destruct Cases as [(Z & _)|(_ & o & e & Z1 & Z2 & _)].
    + lia.
    + rewrite Nat.sub_0_r in Z1. unfold rd_read in Z1. cbn [rd_plan rd_data] in Z1.
      destruct str as [|y str]; [congruence|].
      destruct plan as [|[m| |e'] plan]; try contradiction.
      * destruct (rb_capacity rb); [lia|]. cbn in Z1. injection Z1 as <- <-. discriminate Z2.
      * destruct (rb_capacity rb); [lia|]. cbn in Z1. injection Z1 as <- <-. discriminate Z2.
  - intros n l l' r IV X CR. destruct (decode_act _ HD HB HF H0 IV X) as (_ & _ & MV & _). auto.
  - intros n l l' r news IV X G NE. destruct (decode_act _ HD HB HF H0 IV X) as (_ & _ & _ & news' & G' & MV).
    apply MV. rewrite G in G'. apply app_inv_head in G'. congruence.
  - intros. eapply (@quiet_done _ _ _ E D F Pe Pd fuel wcap rcap); eauto.
  - intros n l IV. destruct (iv_ex IV) as (wt & erest & pend & _ & _ & Q & _). eauto.
  - intros n l IV. apply (iv_wb IV).
  - intros n l IV. apply (iv_rb IV).
  - intros n l IV. apply (iv_eos IV).
Qed.

(** ** One turn *)
Lemma do_io_parts : forall polled rb wb back out rp wp rb' wb' back' out' x,
  do_io polled rb wb back out rp wp = (rb', wb', back', out', x) ->
  (polled = true -> ~ In (Some (RdErr IoWouldBlock)) rp /\ ~ In (Some (WrErr IoWouldBlock)) wp) ->
  exists rd x1, rb_fill rb (mkReader back (splan rp)) = (rb', rd, x1) /\ rd_data rd = back' /\
   ((exists w x2 k, wb_flush wb (mkWriter out (swplan wp)) = (wb', w, x2, k) /\ wr_data w = out' /\
      x = match x1 with Ok _ => x2 | _ => x1 end) \/
    (x1 <> Ok tt /\ wb' = wb /\ out' = out /\ x = x1)).
Proof.
  intros polled rb wb back out rp wp rb' wb' back' out' x H PL. unfold do_io in H. destruct polled.
  - destruct (PL eq_refl) as [PR PW].
    unfold ab_execute_poll in H. cbn [ab_rbuf ab_wbuf ab_rd ab_wr] in H.
    destruct (rb_poll_fill rb (mkAReader back rp)) as [[rb1 rd1] p1] eqn:R.
    destruct (wb_poll_flush wb (mkAWriter out wp)) as [[wb1 wr1] p2] eqn:W.
    destruct (C45_poll_fill rb (r := mkAReader back rp) PR R) as (FR & _).
    destruct (C45_poll_flush wb (w := mkAWriter out wp) PW W) as ([k FW] & _).
    injection H as <- <- <- <- <-.
    exists (sync_reader rd1), (sync_result p1). split; [exact FR|]. split; [reflexivity|]. left.
    exists (sync_writer wr1), (sync_result p2), k. split; [exact FW|]. split; [reflexivity|].
    destruct p1 as [|[u|e| |]], p2 as [|[u'|e'| |]]; try destruct u; try destruct u'; reflexivity.
  - unfold bi_execute in H. cbn [bi_rbuf bi_wbuf bi_rd bi_wr] in H.
    change (sync_reader (mkAReader back rp)) with (mkReader back (splan rp)) in H.
    change (sync_writer (mkAWriter out wp)) with (mkWriter out (swplan wp)) in H.
    destruct (rb_fill rb (mkReader back (splan rp))) as [[rb1 rd1] x1] eqn:R.
    exists rd1, x1. destruct x1 as [u|e| |].
    + destruct (wb_flush wb (mkWriter out (swplan wp))) as [[[wb1 w1] x2] k] eqn:W.
      cbn in H. injection H as <- <- <- <- <-. split; [reflexivity|]. split; [reflexivity|]. left. exists w1, x2, k. auto.
    + cbn in H. injection H as <- <- <- <- <-. split; [reflexivity|]. split; [reflexivity|]. right. repeat split; auto. discriminate.
    + cbn in H. injection H as <- <- <- <- <-. split; [reflexivity|]. split; [reflexivity|]. right. repeat split; auto. discriminate.
    + cbn in H. injection H as <- <- <- <- <-. split; [reflexivity|]. split; [reflexivity|]. right. repeat split; auto. discriminate.
Qed.

Lemma take_in_state : forall Sd B (D : Decoder Sd B) fuel rb s got rb' s' got' x,
  take_in D fuel rb s got = (rb', s', got', x) -> rb_state rb' = rb_state rb.
Proof.
  intros Sd B D fuel rb s got rb' s' got' x H. unfold take_in in H.
  destruct (st_is_eos (rb_state rb) && rb_is_empty rb); [now injection H as <- <- <- <-|].
  destruct (decode_from_read_buf D fuel s rb) as [[s1 rb1] x1] eqn:X.
  assert (Q : rb_state rb1 = rb_state rb).
  { unfold decode_from_read_buf in X. destruct (window _ _ _); [|now injection X as <- <- <-].
    destruct (dec_decode D fuel s l _) as [s2 [n|e| |]]; injection X as <- <- <-; auto.
    unfold rb_consume. destruct (_ =? _); reflexivity. }
  destruct x1 as [u|e| |]; try (injection H as <- <- <- <-; exact Q).
  destruct (dec_idle D s1); [|injection H as <- <- <- <-; exact Q].
  destruct (dec_finish D s1) as [s2 [i|e| |]]; injection H as <- <- <- <-; exact Q.
Qed.

Definition out_link {Sa Sb Ta Tb A B} (me : side Sa Tb A B) (out : list byte) (other : side Sb Ta B A) : link Sa Ta A :=
  mkLink (d_todo me) (d_enc me) (d_wbuf me) out (d_rbuf other) (d_dec other) (d_got other).

Lemma no_zero : forall wp, ~ In (Some WrZero) wp ->
  existsb (fun p => match p with WrZero => true | _ => false end) (swplan wp) = false.
Proof.
  intros wp N. destruct (existsb _ (swplan wp)) eqn:X; auto. apply existsb_exists in X as (p & I & Q).
  apply in_map_iff in I as ([q|] & <- & J); [|discriminate]. destruct q; try discriminate. contradiction.
Qed.

Lemma fill_result : forall rb back plan rb' rd x, rb_ok rb ->
  rb_fill rb (mkReader back plan) = (rb', rd, x) ->
  x = Ok tt \/ exists e, e <> IoWouldBlock /\ In (RdErr e) plan /\ x = Err (reported_kind e).
Proof.
  intros rb back plan rb' rd x OK H. destruct (fill_spec _ OK H) as (data & r1 & RD & _ & _ & _ & _ & Cases).
  pose proof (reading_plan RD) as PP. cbn in PP.
  destruct Cases as [(_ & _ & -> & _)|(_ & o & e & R1 & E1 & -> & _)]; [auto|].
  destruct (rd_read_plan _ _ R1) as [_ P2]. destruct o as [[|]|ioe]; cbn in E1; try discriminate E1.
  - injection E1 as <-. auto.
  - specialize (P2 _ eq_refl). apply PP in P2. destruct ioe; injection E1 as <-; cbn; [auto|right..].
    + exists IoUnexpectedEof. repeat split; auto; discriminate.
    + exists IoInterrupted. repeat split; auto; discriminate.
    + exists IoOther. repeat split; auto; discriminate.
Qed.
Lemma flush_result : forall wb out plan wb' w x k, wb_ok wb ->
  wb_flush wb (mkWriter out plan) = (wb', w, x, k) ->
  x = Ok tt \/ exists e, e <> IoWouldBlock /\ In (WrErr e) plan /\ x = Err (reported_kind e).
Proof.
  intros wb out plan wb' w x k OK H. destruct (flush_spec _ OK H) as [(rest & w1 & WR & _ & _ & _ & _ & Cases) _].
  pose proof (writing_plan WR) as PP. cbn in PP.
  destruct Cases as [(_ & _ & -> & _)|(_ & o & e & R1 & E1 & -> & _)]; [auto|].
  destruct (wr_write_plan _ _ R1) as (_ & P2 & _). destruct o as [[|]|ioe]; cbn in E1; try discriminate E1.
  - injection E1 as <-. auto.
  - specialize (P2 _ eq_refl). apply PP in P2. destruct ioe; injection E1 as <-; cbn; [auto|right..].
    + exists IoUnexpectedEof. repeat split; auto; discriminate.
    + exists IoInterrupted. repeat split; auto; discriminate.
    + exists IoOther. repeat split; auto; discriminate.
Qed.
Lemma splan_err : forall rp e, e <> IoWouldBlock -> In (RdErr e) (splan rp) -> In (Some (RdErr e)) rp.
Proof. intros rp e N I. apply in_map_iff in I as ([q|] & Q & J); [subst; auto|]. congruence. Qed.
Lemma swplan_err : forall wp e, e <> IoWouldBlock -> In (WrErr e) (swplan wp) -> In (Some (WrErr e)) wp.
Proof. intros wp e N I. apply in_map_iff in I as ([q|] & Q & J); [subst; auto|]. congruence. Qed.

Lemma take_in_adv : forall Se Sd A (E : Encoder Se A) (D : Decoder Sd A) fuel items J, lively E D fuel items J ->
  forall n todo e wb str rb s got rb' s' got' x,
  J n (mkLink todo e wb str rb s got) -> take_in D fuel rb s got = (rb', s', got', x) ->
  x = Ok tt /\ exists n', adv E J n (mkLink todo e wb str rb s got) n' (mkLink todo e wb str rb' s' got') /\
    (rb_content rb <> [] -> n' < n).
Proof.
  intros Se Sd A E D fuel items J LV n todo e wb str rb s got rb' s' got' x Jn H.
  set (l := mkLink todo e wb str rb s got) in *.
  destruct (act E D fuel ADecode l) as [[l' r]|] eqn:X.
  - assert (Q : l' = mkLink todo e wb str rb' s' got' /\ r = x).
    { unfold take_in in H. cbn in X. destruct (st_is_eos (rb_state rb) && rb_is_empty rb); [discriminate|].
      destruct (decode_from_read_buf D fuel s rb) as [[s1 rb1] [u|k| |]];
        try (injection X as <- <-; injection H as <- <- <- <-; auto).
      destruct (dec_idle D s1); [|injection X as <- <-; injection H as <- <- <- <-; auto].
      destruct (dec_finish D s1) as [s2 [i|k| |]]; injection X as <- <-; injection H as <- <- <- <-; auto. }
    destruct Q as [-> ->]. destruct (act_adv LV Jn X) as ([->|(ioe & [] & _)] & n' & AD & MV).
    split; [reflexivity|]. exists n'. split; [exact AD|]. intros C. apply MV. eapply (lv_decode LV); eauto.
  - unfold take_in in H. cbn in X. destruct (st_is_eos (rb_state rb) && rb_is_empty rb) eqn:Q.
    + injection H as <- <- <- <-. split; [reflexivity|]. exists n. split; [apply adv_refl; exact Jn|].
      intros C. elim C. apply andb_true_iff in Q as [_ Q]. apply (content_empty (lv_rb LV Jn)). exact Q.
    + exfalso. destruct (decode_from_read_buf D fuel s rb) as [[s1 rb1] [u|k| |]]; try discriminate.
      destruct (dec_idle D s1); [|discriminate]. destruct (dec_finish D s1) as [s2 [i|k| |]]; discriminate.
Qed.

Lemma put_out_adv : forall Se Sd A (E : Encoder Se A) (D : Decoder Sd A) fuel items J, lively E D fuel items J ->
  forall n todo e wb str rb s got todo' e' wb' x,
  J n (mkLink todo e wb str rb s got) -> put_out E fuel todo e wb = (todo', e', wb', x) ->
  x = Ok tt /\ exists n', adv E J n (mkLink todo e wb str rb s got) n' (mkLink todo' e' wb' str rb s got) /\
    (wb_content wb = [] -> n' = n -> todo = [] /\ enc_idle E e = true).
Proof.
  intros Se Sd A E D fuel items J LV n todo e wb str rb s got todo' e' wb' x Jn H.
  assert (ENC : forall n todo e, J n (mkLink todo e wb str rb s got) ->
            forall s2 wb2 r, encode_to_write_buf E fuel e wb = (s2, wb2, r) ->
            r = Ok tt /\ exists n', adv E J n (mkLink todo e wb str rb s got) n' (mkLink todo s2 wb2 str rb s got) /\
              (enc_idle E e = false -> wb_content wb = [] -> n' < n)).
  { clear - LV. intros n todo e Jn s2 wb2 r H.
    assert (X : act E D fuel AEncode (mkLink todo e wb str rb s got) = Some (mkLink todo s2 wb2 str rb s got, r)).
    { cbn. rewrite H. reflexivity. }
    destruct (act_adv LV Jn X) as ([->|(ioe & [] & _)] & n' & AD & MV). split; [reflexivity|].
    exists n'. split; [exact AD|]. intros. apply MV. eapply (lv_encode LV); eauto. }
  unfold put_out in H. destruct todo as [|i todo].
  - destruct (encode_to_write_buf E fuel e wb) as [[s2 wb2] r] eqn:X.
    assert (H' : ([], s2, wb2, r) = (todo', e', wb', x)) by (destruct (enc_idle E e); exact H).
    injection H' as <- <- <- <-. destruct (ENC _ _ _ Jn _ _ _ X) as (-> & n' & AD & MV).
    split; [reflexivity|]. exists n'. split; [exact AD|]. intros C Q. split; [reflexivity|].
    destruct (enc_idle E e); auto. specialize (MV eq_refl C). lia.
  - destruct (enc_idle E e) eqn:ID.
    + destruct (enc_start E fuel e i) as [s1 r1] eqn:ST.
      assert (X : act E D fuel AStart (mkLink (i :: todo) e wb str rb s got) = Some (mkLink todo s1 wb str rb s got, r1)).
      { cbn. rewrite ID, ST. reflexivity. }
      destruct (act_adv LV Jn X) as ([->|(ioe & [] & _)] & n1 & AD & MV).
      assert (L1 : n1 < n).
      { apply MV. left. cbn. intro Q. apply (f_equal (@length _)) in Q. cbn in Q. lia. }
      destruct (encode_to_write_buf E fuel s1 wb) as [[s2 wb2] r] eqn:Y. injection H as <- <- <- <-.
      destruct (ENC _ _ _ (proj1 AD) _ _ _ Y) as (-> & n2 & AD2 & _). split; [reflexivity|].
      exists n2. split; [eapply adv_trans; eauto|]. destruct AD2 as (_ & L2 & _). lia.
    + destruct (encode_to_write_buf E fuel e wb) as [[s2 wb2] r] eqn:X. injection H as <- <- <- <-.
      destruct (ENC _ _ _ Jn _ _ _ X) as (-> & n' & AD & MV). split; [reflexivity|].
      exists n'. split; [exact AD|]. intros C Q. specialize (MV ID C). lia.
Qed.

Section Turn.
Context {Sa Sb Ta Tb A B : Type}.
Variables (EA : Encoder Sa A) (DA : Decoder Ta A) (EB : Encoder Sb B) (DB : Decoder Tb B) (fuel : nat).
Variables (itA : list A) (itB : list B) (J1 : nat -> link Sa Ta A -> Prop) (J2 : nat -> link Sb Tb B -> Prop).
Hypothesis (L1 : lively EA DA fuel itA J1).
Hypothesis (L2 : lively EB DB fuel itB J2).

(** [execute_io]. *)
Lemma io_adv : forall polled LA (e : Sa) wb out orb (os : Ta) ogot LB (oe : Sb) owb back rb (s : Tb) got rp wp rb1 wb1 back1 out1 x n1 n2,
  J1 n1 (mkLink LA e wb out orb os ogot) -> J2 n2 (mkLink LB oe owb back rb s got) ->
  do_io polled rb wb back out rp wp = (rb1, wb1, back1, out1, x) ->
  ~ In (Some WrZero) wp ->
  (polled = true -> ~ In (Some (RdErr IoWouldBlock)) rp /\ ~ In (Some (WrErr IoWouldBlock)) wp) ->
  (rb_state rb1 = StEos -> LB = [] /\ enc_idle EB oe = true /\ wb_content owb = [] /\ back1 = []) ->
  (x = Ok tt \/ io_error rp wp x) /\ (willing back rp wp -> x = Ok tt) /\
  exists m1 m2,
    adv EA J1 n1 (mkLink LA e wb out orb os ogot) m1 (mkLink LA e wb1 out1 orb os ogot) /\
    adv EB J2 n2 (mkLink LB oe owb back rb s got) m2 (mkLink LB oe owb back1 rb1 s got) /\
    (willing back rp wp -> m1 = n1 -> wb_content wb = []) /\
    (willing back rp wp -> m2 = n2 -> rb_content rb = [] -> back = []).
Proof.
  intros polled todo e wb out orb os ogot otodo oe owb back rb s got rp wp rb1 wb1 back1 out1 x n1 n2 Jo Ji IO NZ PL EO.
  destruct (do_io_parts _ _ _ _ _ _ IO PL) as (rd & x1 & FI & RD & REST).
  (* fill *)
  pose proof lv_rb L2 (Ji) as RB. pose proof (lv_wb L1 Jo) as WB. pose proof (lv_wb L2 Ji) as OWB. cbn in RB, WB, OWB.
  assert (XF : act EB DB fuel (AFill (splan rp)) (mkLink otodo oe owb back rb s got)
               = Some (mkLink otodo oe owb back1 rb1 s got, x1)).
  { cbn [act l_todo l_enc l_wbuf l_stream l_rbuf l_dec l_got]. rewrite FI, RD.
    destruct (rb_state rb1) eqn:RS; cbn [st_is_eos andb]; auto.
    destruct (EO eq_refl) as (-> & -> & C & ->). apply (content_empty OWB) in C. unfold wb_is_empty. rewrite C. reflexivity. }
  destruct (act_adv L2 Ji XF) as (_ & m2 & AD2 & MV2).
  pose proof (fill_result _ _ RB FI) as RF.
  assert (FR : willing back rp wp -> x1 = Ok tt).
  { intros (W & _). destruct RF as [|(ioe & N & I & _)]; auto. elim N. apply W. left. apply splan_err; auto. }
  assert (FM : willing back rp wp -> m2 = n2 -> rb_content rb = [] -> back = []).
  { intros (_ & W & _) Q C. destruct back as [|y back]; auto. exfalso.
    assert (m2 < n2); [|lia]. apply MV2. eapply (lv_fill L2); [exact Ji|exact XF| |discriminate|exact C].
    assert (NE : y :: back <> []) by discriminate. specialize (W NE).
    destruct rp as [|[[k| |]|] rp]; try contradiction; exact I. }
  (* flush *)
  assert (FL : exists m1, adv EA J1 n1 (mkLink todo e wb out orb os ogot) m1 (mkLink todo e wb1 out1 orb os ogot) /\
            (x = Ok tt \/ io_error rp wp x) /\ (willing back rp wp -> x = Ok tt) /\
            (willing back rp wp -> m1 = n1 -> wb_content wb = [])).
  { destruct REST as [(w & x2 & k & FU & WD & XQ)|(NX & -> & -> & ->)].
    - assert (XF2 : act EA DA fuel (AFlush (swplan wp)) (mkLink todo e wb out orb os ogot)
               = Some (mkLink todo e wb1 out1 orb os ogot, x2)).
      { cbn [act l_todo l_enc l_wbuf l_stream l_rbuf l_dec l_got]. rewrite no_zero by exact NZ. rewrite FU, WD. reflexivity. }
      destruct (act_adv L1 Jo XF2) as (_ & m1 & AD1 & MV1).
      pose proof (flush_result _ _ WB FU) as RW.
      exists m1. split; [exact AD1|]. split; [|split].
      + destruct RF as [->|(ioe & N & I & ->)]; [|right; subst x; exists ioe; split; [auto|split; [left; apply splan_err; auto|reflexivity]]].
        subst x. destruct RW as [->|(ioe & N & I & ->)]; [auto|]. right. exists ioe. split; [auto|split; [right; apply swplan_err; auto|reflexivity]].
      + intros W. rewrite (FR W) in XQ. subst x. destruct RW as [|(ioe & N & I & _)]; auto. elim N. apply (proj1 W). right. apply swplan_err; auto.
      + intros (_ & _ & W) Q. destruct (wb_content wb) as [|y c] eqn:C; auto. exfalso.
        assert (m1 < n1); [|lia]. apply MV1. eapply (lv_flush L1); [exact Jo|exact XF2| |cbn; rewrite C; discriminate].
        destruct wp as [|[[m| |]|] wp]; try contradiction; exact I.
    - exists n1. split; [apply adv_refl; exact Jo|]. split; [|split].
      + destruct RF as [->|(ioe & N & I & ->)]; [congruence|]. right. exists ioe. split; [auto|split; [left; apply splan_err; auto|reflexivity]].
      + auto.
      + intros W. specialize (FR W). contradiction. }
  destruct FL as (m1 & AD1 & XO & XW & CW). split; [exact XO|]. split; [exact XW|].
  exists m1, m2. auto.
Qed.

Lemma turn_adv : forall polled (me : side Sa Tb A B) (other : side Sb Ta B A) back out rp wp me' back' out' r n1 n2,
  J1 n1 (out_link me out other) -> J2 n2 (out_link other back me) ->
  turn EA DB fuel polled me back out rp wp = (me', back', out', r) ->
  legal EB polled other rp wp (d_rbuf me') back' ->
  (r = Ok tt \/ io_error rp wp r) /\
  exists n1' n2',
    adv EA J1 n1 (out_link me out other) n1' (out_link me' out' other) /\
    adv EB J2 n2 (out_link other back me) n2' (out_link other back' me') /\
    (willing back rp wp -> n1' = n1 -> d_todo me = [] /\ enc_idle EA (d_enc me) = true /\ wb_content (d_wbuf me) = []) /\
    (willing back rp wp -> n2' = n2 -> rb_content (d_rbuf me) = [] /\ back = []).
Proof.
  intros polled [todo e wb rb s got] [otodo oe owb orb os ogot] back out rp wp me' back' out' r n1 n2 Jo Ji H (NZ & PL & EO).
  unfold out_link in *. cbn [d_todo d_enc d_wbuf d_rbuf d_dec d_got] in *.
  unfold turn in H. cbn [d_todo d_enc d_wbuf d_rbuf d_dec d_got] in H.
  destruct (do_io polled rb wb back out rp wp) as [[[[rb1 wb1] back1] out1] x] eqn:IO.
  (* the end of the stream *)
  assert (BK : back' = back1 /\ out' = out1 /\ rb_state (d_rbuf me') = rb_state rb1).
  { destruct x as [u|k| |]; try (injection H as <- <- <- <-; auto).
    destruct (take_in DB fuel rb1 s got) as [[[rb2 s2] got2] x2] eqn:TI.
    pose proof (@take_in_state _ _ _ _ _ _ _ _ _ _ _ TI).
    destruct x2 as [u2|k| |]; try (injection H as <- <- <- <-; auto).
    destruct (put_out EA fuel todo e wb1) as [[[t3 e3] wb3] x3]. injection H as <- <- <- <-. auto. }
  destruct BK as (-> & -> & ST). rewrite ST in EO. clear ST.
  destruct (@io_adv _ _ _ _ _ _ _ _ _ _ _ _ _ _ _ _ _ _ _ _ _ _ _ _ Jo Ji IO NZ PL EO) as (XO & XW & m1 & m2 & AD1 & AD2 & CW & FM).
  destruct x as [u|k| |].
  - destruct (take_in DB fuel rb1 s got) as [[[rb2 s2] got2] x2] eqn:TI.
    destruct (@take_in_adv _ _ _ _ _ _ _ _ L2 _ _ _ _ _ _ _ _ _ _ _ _ (proj1 AD2) TI) as (-> & p2 & AD3 & MV3).
    destruct (put_out EA fuel todo e wb1) as [[[t3 e3] wb3] x3] eqn:PO. injection H as <- <-.
    destruct (@put_out_adv _ _ _ _ _ _ _ _ L1 _ _ _ _ _ _ _ _ _ _ _ _ (proj1 AD1) PO) as (-> & p1 & AD4 & MV4).
    split; [auto|]. exists p1, p2. cbn [d_todo d_enc d_wbuf d_rbuf d_dec d_got].
    split; [eapply adv_trans; eauto|]. split; [eapply adv_trans; eauto|].
    destruct AD1 as (_ & LE1 & SM1 & _), AD4 as (_ & LE4 & _), AD2 as (_ & LE2 & SM2 & _), AD3 as (_ & LE3 & _).
    split; intros W Q.
    + assert (Q1 : m1 = n1) by lia. assert (Q2 : p1 = m1) by lia. specialize (CW W Q1).
      destruct (SM1 Q1) as (_ & _ & SC & _). cbn in SC. destruct MV4 as [T I]; [congruence|auto|]. auto.
    + assert (Q1 : m2 = n2) by lia. assert (Q2 : p2 = m2) by lia.
      destruct (SM2 Q1) as (_ & _ & _ & _ & SC). cbn in SC.
      assert (C : rb_content rb = []).
      { destruct (rb_content rb) eqn:C; auto. exfalso. assert (p2 < m2); [|lia]. apply MV3. rewrite SC. discriminate. }
      split; [exact C|]. apply FM; auto.
  - injection H as <- <-. split; [exact XO|]. exists m1, m2. cbn. split; [exact AD1|]. split; [exact AD2|].
    split; intros W; specialize (XW W); discriminate.
  - injection H as <- <-. split; [exact XO|]. exists m1, m2. cbn. split; [exact AD1|]. split; [exact AD2|].
    split; intros W; specialize (XW W); discriminate.
  - injection H as <- <-. split; [exact XO|]. exists m1, m2. cbn. split; [exact AD1|]. split; [exact AD2|].
    split; intros W; specialize (XW W); discriminate.
Qed.
End Turn.

(** A connection that gives and takes one byte if there is one, and blocks then. *)
Definition polite (back : list byte) : list (option RdPlan) :=
  match back with [] => [None] | _ => [Some (RdSome 0); None] end.
Definition polite_w : list (option WrPlan) := [Some (WrSome 0); None].
Lemma polite_fill : forall rb back rb' rd x, rb_ok rb ->
  rb_fill rb (mkReader back (splan (polite back))) = (rb', rd, x) ->
  rb_state rb' = StEos -> rb_state rb = StEos /\ rd_data rd = back.
Proof.
  intros rb back rb' rd x OK H Q.
  destruct (fill_spec _ OK H) as (data & r1 & RD & _ & _ & _ & _ & Cases).
  destruct Cases as [(_ & -> & _ & S)|(LT & o & e & R1 & E1 & _ & S)].
  - rewrite S in Q. destruct data; [|discriminate]. inversion RD; subst. auto.
  - exfalso. rewrite S in Q. destruct e; try discriminate Q.
    destruct o as [[|? ?]|[]]; cbn in E1; try discriminate E1. clear E1.
    destruct back as [|y back]; cbn in RD.
    + inversion RD as [Z|? ? ? ? ? ? ? Z1 Z2]; subst; [|cbn in Z1; discriminate Z1]. cbn in R1. discriminate R1.
    + inversion RD as [Z|? ? ? ? ? ? ? Z1 Z2]; subst.
      * cbn [length] in LT. unfold rd_read in R1. cbn [rd_plan rd_data length] in R1.
        rewrite Nat.sub_0_r in R1. destruct (rb_capacity rb - rb_tail rb); [lia|]. cbn in R1. discriminate R1.
      * unfold rd_read in Z1. cbn [rd_plan rd_data] in Z1. injection Z1 as <- _.
        inversion Z2 as [Z|? ? ? ? ? ? ? Y1 Y2]; subst; [cbn in R1; discriminate R1|cbn in Y1; discriminate Y1].
Qed.
