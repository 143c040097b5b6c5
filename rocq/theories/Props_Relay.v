(** * C96: a relay that decodes and encodes again passes on what it has read. *)
From Coq Require Import Lia ZifyBool ZifyNat ZifyN.
From Verif Require Import Relay SoundProofs WritesProofs Props_Codec Props_Writes Props_Verdict Props_Trunc Examples.
Set Implicit Arguments.

(** ** What is read is what would be written *)
Lemma reads_wire :
  (forall A (c : codec A) w a, canonical c -> reads c w a -> wire c w a) /\
  (forall A (p : parts A) w a, pcanonical p -> preads p w a -> pwire p w a).
Proof.
  assert (Sq : forall A (c : codec A) (IH : forall w a, reads c w a -> wire c w a) w l,
    sequence_of (reads c) w l -> sequence_of (wire c) w l).
  { intros A c IH w l (ws & -> & F). exists ws. split; auto. induction F; auto. }
  apply codec_parts_ind; cbn; auto.
  - intros A f g w a H (E & L). split; auto.
  - intros A B f g c IH w b [C H] (a & R & <-). rewrite (H _ _ R). auto.
  - intros A B f g c IH w b [C H] (a & R & E). exists a. split; [eapply H; eauto|]. auto.
  - intros A o c IH w [a|] C [E H]; auto.
  - intros A n c IH w a C [H L]; auto.
  - intros A n c IH w a C [H L]; auto.
  - intros A n c IH w a C [H L]; auto.
  - intros A c IH w a C [H L]; auto.
  - intros A c IH w l C (L & H). split; auto.
  - intros A n c IH w l C (L & H & E). split; auto.
  - intros A k size c IH w a [C H] (L & w0 & w1 & -> & Nb & R). split; auto. exists w0, w1.
    rewrite (H _ _ R). auto.
  - intros A k c IH w l C (L & w0 & w1 & -> & Nb & R). split; auto. exists w0, w1. auto.
  - tauto.
  - intros A B c IH c' IH' w i [C C'] (L & w0 & w1 & -> & H & H'). split; auto. exists w0, w1. auto.
  - intros A B p IH c IH' w i [C C'] (L & w0 & w1 & -> & H & H'). split; auto. exists w0, w1. auto.
Qed.
Theorem C96_same_bytes : forall A (c : codec A) w a, canonical c -> reads c w a -> writes c a w.
Proof. intros A c w a C R. eapply C60_covers_wire. apply (proj1 reads_wire); eauto. Qed.
Print Assumptions C96_same_bytes.

(** ** One message in memory *)
Theorem C96_in_memory : forall A (c : codec A) w a fuel,
  wf c -> usable c -> faithful c -> ewf c -> canonical c -> busy c = true -> fits w -> length w < fuel ->
  snd (decode_from_bytes (decoder c) fuel (dec_fresh c) w) = Ok a ->
  (forall fuel' b, snd (encode_into_bytes (encoder c) fuel' (enc_fresh c) a) = Ok b -> b = w) /\
  (enc_again c = true -> exists f0, forall fuel', f0 <= fuel' ->
    snd (encode_into_bytes (encoder c) fuel' (enc_fresh c) a) = Ok w).
Proof.
  intros A c w a fuel WF U FA EW C B FI F X.
  apply (proj1 (C39_decode_from_bytes c a WF U FA B FI F)) in X.
  pose proof (proj1 reads_wire _ _ _ _ C X) as W. destruct (C60_covers_wire _ _ _ W) as [T WR]. split.
  - intros fuel' b Y. destruct (encode_into_bytes _ _ _ _) as [s y] eqn:Z. cbn in Y. subst y.
    eapply C60_one_encoding; [|exact WR]. eapply C60_encode_into_bytes; eauto.
  - intros EA. destruct (@C41_encode_into_bytes A c w a WF EA W) as (f0 & H). exists (Datatypes.S (f0 + length w)).
    intros fuel' L. destruct (H fuel' ltac:(lia)) as (s & -> & _). reflexivity.
Qed.
Print Assumptions C96_in_memory.

(** ** The whole relay, any reader, any writer *)
Lemma rd_read_data : forall r k r' b, rd_read r k = (r', inl b) -> rd_data r = b ++ rd_data r'.
Proof.
  intros r k r' b. unfold rd_read. destruct (rd_plan r) as [|[n| |e] p]; intros [= <- <-]; cbn; auto;
    symmetry; apply firstn_skipn.
Qed.
Lemma rd_read_data_err : forall r k r' e, rd_read r k = (r', inr e) -> rd_data r = rd_data r'.
Proof. intros r k r' b. unfold rd_read. destruct (rd_plan r) as [|[n| |e] p]; intros [= <- <-]; reflexivity. Qed.
Lemma decode_exact_takes : forall S I (D : Decoder S I) ifuel fuel s r s' r' x,
  decode_exact D fuel ifuel s r = (s', r', x) -> exists w, rd_data r = w ++ rd_data r'.
Proof.
  intros S I D ifuel. induction fuel as [|fuel IH]; intros s r s' r' x; cbn [decode_exact].
  { intros [= <- <- <-]. exists []. reflexivity. }
  destruct (dec_req D s) as [q|k| |]; try (intros [= <- <- <-]; exists []; reflexivity). cbv zeta.
  destruct (if exact_ask q =? 0 then (r, inl []) else rd_read r (exact_ask q)) as [r1 [b|e]] eqn:RD.
  2: { intros [= <- <- <-]. exists []. destruct (_ =? 0); [discriminate|]. now apply rd_read_data_err in RD. }
  assert (DA : rd_data r = b ++ rd_data r1).
  { destruct (_ =? 0); [injection RD as <- <-; reflexivity|]. now apply rd_read_data in RD. }
  destruct (dec_decode D ifuel s b _) as [s1 [n|k| |]]; try (intros [= <- <- <-]; eauto).
  destruct (n =? length b); [|intros [= <- <- <-]; eauto].
  destruct (dec_idle D s1).
  - destruct (dec_finish D s1) as [s2 y]. intros [= <- <- <-]. eauto.
  - intros X. destruct (IH _ _ _ _ _ X) as (w & E). exists (b ++ w). now rewrite DA, E, app_assoc.
Qed.
(** [decode_exact] with an item: what was taken from the reader justifies it, and the decoder starts afresh. *)
Lemma decode_exact_sound : forall S I (D : Decoder S I) fmt again bz ifuel fuel s r acc s' r' i,
  sound_from D fmt again bz s acc -> dec_idle D s = false ->
  decode_exact D fuel ifuel s r = (s', r', Ok i) ->
  (exists w, rd_data r = w ++ rd_data r' /\ fmt (acc ++ w) i) /\
  (again = true -> sound_from D fmt again bz s' [] /\ (bz = true -> dec_idle D s' = false)).
Proof.
  intros S I D fmt again bz ifuel fuel.
  pose proof (sound_closed D fmt again bz) as CL.
  induction fuel as [|fuel IH]; intros s r acc s' r' i H id X; cbn [decode_exact] in X; [discriminate|].
  destruct (dec_req D s) as [q|k| |]; try discriminate. cbv zeta in X.
  destruct (if exact_ask q =? 0 then (r, inl []) else rd_read r (exact_ask q)) as [r1 [b|e]] eqn:RD; [|discriminate].
  assert (DA : rd_data r = b ++ rd_data r1).
  { destruct (exact_ask q =? 0); [injection RD as <- <-; reflexivity|]. now apply rd_read_data in RD. }
  destruct (dec_decode D ifuel s b _) as [s1 [n|k| |]] eqn:Y; try discriminate.
  destruct (Nat.eqb_spec n (length b)) as [->|]; [|discriminate].
  destruct (sd_decode CL H id Y) as (_ & H1). rewrite firstn_all in H1.
  destruct (dec_idle D s1) eqn:id1.
  - destruct (dec_finish D s1) as [s2 x] eqn:Z. injection X as -> -> ->.
    destruct (sd_finish CL H1 Z) as [F K]. split; [|exact K]. exists b. auto.
  - destruct (IH _ _ _ _ _ _ H1 id1 X) as ((w & E2 & F) & K). split; [|exact K]. exists (b ++ w).
    rewrite app_assoc. split; auto. now rewrite DA, E2, app_assoc.
Qed.
Lemma write_all_within : forall fuel w b w' x, wr_write_all_loop fuel w b = (w', x) ->
  exists p q, b = p ++ q /\ wr_data w' = wr_data w ++ p.
Proof.
  induction fuel as [|fuel IH]; intros w b w' x; cbn [wr_write_all_loop]; destruct b as [|y b];
    try (intros [= <- <-]; exists [], []; split; [reflexivity|now rewrite app_nil_r]); try (intros [= <- <-]; exists [], (y :: b); now rewrite app_nil_r).
  destruct w as [d [|[k| |io] pl]]; unfold wr_write; cbn [wr_plan wr_data].
  - cbn [length]. intros H. destruct (IH _ _ _ _ H) as (p & q & E & D). cbn [wr_data] in D.
    rewrite skipn_all2 in E by (cbn; lia). symmetry in E. apply app_eq_nil in E. destruct E as [-> ->].
    exists (y :: b), []. now rewrite D, !app_nil_r.
  - destruct (Nat.min (length (y :: b)) (Datatypes.S k)) as [|m] eqn:M.
    { intros [= <- <-]. exists [], (y :: b). cbn. now rewrite !app_nil_r. }
    intros H. destruct (IH _ _ _ _ H) as (p & q & E & D). cbn [wr_data] in D.
    exists (firstn (Datatypes.S m) (y :: b) ++ p), q. rewrite <- !app_assoc, <- E, firstn_skipn.
    split; auto. rewrite D, <- app_assoc. reflexivity.
  - intros [= <- <-]. exists [], (y :: b). now rewrite app_nil_r.
  - destruct io; try (intros [= <- <-]; exists [], (y :: b); now rewrite app_nil_r).
    intros H. exact (IH _ _ _ _ H).
Qed.
Lemma encode_all_within : forall S I (E : Encoder S I) enc again strict P R, wsound E enc again strict P R ->
  forall fuel ifuel s out buf w s' w' x, R s (Some out) ->
  encode_all_loop E fuel ifuel s buf w = (s', w', x) ->
  exists p q, out = p ++ q /\ wr_data w' = wr_data w ++ p.
Proof.
  intros S I E enc again strict P R H. induction fuel as [|fuel IH]; intros ifuel s out buf w s' w' x r;
    cbn [encode_all_loop]; destruct (enc_idle E s) eqn:id;
    try (intros [= <- <- <-]; exists [], out; now rewrite app_nil_r).
  destruct (enc_encode E ifuel s buf (eos_new false)) as [[s1 b1] [n| | |]] eqn:X;
    try (intros [= <- <- <-]; exists [], out; now rewrite app_nil_r).
  destruct (n <=? length b1); [|intros [= <- <- <-]; exists [], out; now rewrite app_nil_r].
  destruct (ws_step H r X) as (A1 & A2 & A3 & A4 & A5). cbn in A3.
  destruct (wr_write_all w (firstn n b1)) as [w1 y] eqn:W.
  destruct (@write_all_within _ _ _ _ _ W) as (p & q & E1 & D1).
  assert (K : exists p q, out = p ++ q /\ wr_data w1 = wr_data w ++ p).
  { exists p, (q ++ skipn n out). rewrite app_assoc, <- E1, A5, firstn_skipn. auto. }
  destruct y as [[]| | |]; try (intros [= <- <- <-]; exact K).
  destruct (negb (enc_idle E s1) && (n =? 0)); [intros [= <- <- <-]; exact K|]. intros Y.
  destruct (IH _ _ _ _ _ _ _ _ A3 Y) as (p2 & q2 & E2 & D2).
  unfold wr_write_all in W. apply wr_write_all_data in W.
  exists (firstn n b1 ++ p2), q2. rewrite <- app_assoc, <- E2, A5, firstn_skipn. split; auto.
  rewrite D2, W, <- app_assoc, A5. reflexivity.
Qed.

(** Whatever the reader contains and however the reader and the writer behave, the relay never
    writes anything but a prefix of what it has read, and when it succeeds, it has written all of it. *)
Theorem C96_relay : forall A (c : codec A) k fuel r w s t r' w' x,
  wf c -> usable c -> faithful c -> ewf c -> canonical c ->
  busy c = true -> renews c = true -> enc_again c = true -> fits (rd_data r) ->
  relay (decoder c) (encoder c) k fuel (dec_fresh c) (enc_fresh c) r w = (s, t, r', w', x) ->
  exists passed pending,
    rd_data r = passed ++ pending ++ rd_data r' /\ wr_data w' = wr_data w ++ passed /\
    (x = Ok tt -> pending = []).
Proof.
  intros A c k fuel r w s t r' w' x WF U FA EW C B RN EA FI X.
  destruct (proj1 term_sound A c U) as [SND ID]. specialize (ID B).
  destruct (proj1 term_wok A c EW) as (P & R & H & p0).
  assert (OUT : forall m a, reads c m a -> outp c a = Some m).
  { intros m a RD. pose proof (proj1 reads_wire _ _ _ _ C RD) as W. destruct (C60_covers_wire _ _ _ W) as [T WR].
    destruct (@C40_encode_all A c m a WF W) as (f0 & G).
    destruct (G (Datatypes.S (f0 + length m)) (mkWriter [] []) ltac:(lia) ltac:(constructor))
      as (s1 & s2 & wr' & Y1 & Y2 & _ & _).
    destruct (encode_all_sound H (ws_start H p0 Y1) Y2) as (_ & _ & out & E & _). rewrite E. f_equal.
    eapply C60_one_encoding; [|exact WR]. now apply (proj1 outp_writes). }
  revert X. generalize p0 SND ID. generalize (dec_fresh c) (enc_fresh c). revert r w FI.
  clear p0 SND ID. induction k as [|k IH]; intros r w FI s0 t0 p0 SND ID; cbn [relay].
  { intros [= <- <- <- <- <-]. exists [], []. now rewrite app_nil_r. }
  destruct (decode_exact (decoder c) fuel fuel s0 r) as [[s1 r1] y] eqn:X1.
  destruct (@decode_exact_takes _ _ _ _ _ _ _ _ _ _ X1) as (m0 & E0).
  destruct y as [i| | |]; try (intros [= <- <- <- <- <-]; exists [], m0; rewrite app_nil_r; split; [exact E0|split; [reflexivity|discriminate]]).
  destruct (@decode_exact_sound _ _ _ _ _ _ _ _ _ _ _ _ _ _ SND ID X1) as ((m & E1 & J) & K). cbn in J. destruct (K RN) as [SND1 ID1].
  assert (FM : fits m) by (rewrite E1 in FI; eapply fits_l; eauto).
  pose proof (OUT _ _ (proj1 justifies_reads _ _ _ _ FA FM J)) as O.
  destruct (enc_start (encoder c) fuel t0 i) as [t1 y] eqn:X2.
  destruct y as [[]| | |]; try (intros [= <- <- <- <- <-]; exists [], m; rewrite app_nil_r; split; [exact E1|split; [reflexivity|discriminate]]).
  pose proof (ws_start H p0 X2) as r2. rewrite O in r2.
  destruct (encode_all (encoder c) fuel t1 w) as [[t2 w2] y] eqn:X3.
  destruct (@encode_all_within _ _ _ _ _ _ _ _ H _ _ _ _ _ _ _ _ _ r2 X3) as (p & q & E2 & D2).
  destruct y as [[]| | |]; try (intros [= <- <- <- <- <-]; exists p, q; rewrite app_assoc, <- E2; split; [exact E1|split; [exact D2|discriminate]]).
  destruct (encode_all_sound H r2 X3) as (I1 & I2 & out & E3 & D3). injection E3 as <-.
  intros Y. assert (F1 : fits (rd_data r1)).
  { unfold fits in *. rewrite E1, len_app in FI. lia. }
  destruct (IH _ _ F1 _ _ (proj2 (ws_rest H EA) _ _ I2 I1) SND1 (ID1 B) Y) as (pa & pe & G1 & G2 & G3).
  exists (m ++ pa), pe. rewrite <- app_assoc, <- G1. split; auto. rewrite G2, D3, <- app_assoc. auto.
Qed.
Print Assumptions C96_relay.
Example C96_relay_example :
  let r := mkReader (ex_msg_bytes ++ firstn 7 ex_msg_bytes) [RdSome 2; RdSome 0] in
  let w := mkWriter [x55] [WrSome 3; WrErr IoInterrupted] in
  wf ex_msg /\ usable ex_msg /\ faithful ex_msg /\ ewf ex_msg /\ canonical ex_msg /\
  busy ex_msg = true /\ renews ex_msg = true /\ enc_again ex_msg = true /\ fits (rd_data r) /\
  exists s t r' w',
    relay (decoder ex_msg) (encoder ex_msg) 2 2000 (dec_fresh ex_msg) (enc_fresh ex_msg) r w
      = (s, t, r', w', Err UnexpectedEos) /\ wr_data w' = x55 :: ex_msg_bytes.
Proof.
  cbv zeta. split; [apply ex_msg_wf|]. split; [apply ex_msg_usable|]. split; [apply ex_msg_faithful|].
  split; [cbn; auto|]. split. { cbn. repeat split; auto. intros w a (E & _). now rewrite E. }
  split; [reflexivity|]. split; [reflexivity|]. split; [reflexivity|]. split; [discriminate|].
  do 4 eexists. split; [vm_compute; reflexivity|reflexivity].
Qed.

(** ** And it passes on every stream of messages, if the reader and the writer never fail *)
Lemma write_all_plan : forall fuel w b w' x, wr_write_all_loop fuel w b = (w', x) ->
  exists used, wr_plan w = used ++ wr_plan w'.
Proof.
  induction fuel as [|fuel IH]; intros w b w' x; cbn [wr_write_all_loop]; destruct b as [|y b];
    try (intros [= <- <-]; now exists []).
  destruct w as [d [|k pl]].
  - unfold wr_write; cbn [wr_plan wr_data length]. intros H. exact (IH _ _ _ _ H).
  - destruct (wr_write (mkWriter d (k :: pl)) (y :: b)) as [w1 z] eqn:X.
    assert (E : wr_plan w1 = pl) by (unfold wr_write in X; cbn [wr_plan] in X; destruct k; injection X as <- _; reflexivity).
    cbn [wr_plan]. rewrite <- E.
    assert (K : (w' = w1 -> exists used, k :: wr_plan w1 = used ++ wr_plan w')) by (intros ->; now exists [k]).
    destruct z as [[|m]|e].
    + intros [= <- _]. auto.
    + intros H. destruct (IH _ _ _ _ H) as (u & ->). now exists (k :: u).
    + destruct e; try (intros [= <- _]; auto). intros H. destruct (IH _ _ _ _ H) as (u & ->). now exists (k :: u).
Qed.
Lemma encode_all_plan : forall S I (E : Encoder S I) fuel ifuel s buf w s' w' x,
  encode_all_loop E fuel ifuel s buf w = (s', w', x) -> exists used, wr_plan w = used ++ wr_plan w'.
Proof.
  intros S I E. induction fuel as [|fuel IH]; intros ifuel s buf w s' w' x; cbn [encode_all_loop];
    destruct (enc_idle E s); try (intros [= <- <- <-]; now exists []).
  destruct (enc_encode E ifuel s buf (eos_new false)) as [[s1 b1] [n| | |]]; try (intros [= <- <- <-]; now exists []).
  destruct (n <=? length b1); [|intros [= <- <- <-]; now exists []].
  destruct (wr_write_all w (firstn n b1)) as [w1 y] eqn:W. apply write_all_plan in W.
  destruct y as [[]| | |]; try (intros [= <- <- <-]; exact W).
  destruct (negb (enc_idle E s1) && (n =? 0)); [intros [= <- <- <-]; exact W|]. intros Y.
  destruct (IH _ _ _ _ _ _ _ Y) as (u & E2). destruct W as (u0 & W). exists (u0 ++ u). now rewrite W, E2, app_assoc.
Qed.
Theorem C96_every_stream : forall A (c : codec A) ms items,
  wf c -> canonical c -> busy c = true -> delim c = SD -> dec_again c = true -> enc_again c = true ->
  Forall2 (reads c) ms items ->
  exists f0, forall fuel r w rest, f0 <= fuel ->
  rd_data r = concat ms ++ rest -> short_reads r -> short_writes w ->
  exists s t r' w',
    relay (decoder c) (encoder c) (length ms) fuel (dec_fresh c) (enc_fresh c) r w = (s, t, r', w', Ok tt) /\
    rd_data r' = rest /\ wr_data w' = wr_data w ++ concat ms.
Proof.
  intros A c ms items WF C B M DA EA HF.
  pose proof (proj1 term_dec_ok A c WF) as DO. unfold code_dec_ok in DO. rewrite DA, M, B in DO.
  destruct (dec_ok_again DO) as (P & HD & H0 & HB). specialize (HB (or_introl eq_refl)).
  pose proof (proj1 term_enc_ok A c WF) as EO. unfold code_enc_ok in EO. rewrite EA in EO.
  destruct (enc_ok_again EO) as (Q & HE & K0 & _).
  cut (exists f0, forall fuel r w rest s t, P s -> Q t -> f0 <= fuel ->
    rd_data r = concat ms ++ rest -> short_reads r -> short_writes w ->
    exists s' t' r' w', relay (decoder c) (encoder c) (length ms) fuel s t r w = (s', t', r', w', Ok tt) /\
      rd_data r' = rest /\ wr_data w' = wr_data w ++ concat ms).
  { intros (f0 & G). exists f0. intros. eapply G; eauto. }
  clear H0 K0. induction HF as [|m a ms items R HF (f1 & IH)].
  - exists 0. intros fuel r w rest s t p q _ RD _ _. cbn. exists s, t, r, w. now rewrite app_nil_r.
  - destruct (HE _ _ (proj1 reads_wire _ _ _ _ C R)) as (f0 & AC).
    exists (f1 + Datatypes.S (Datatypes.S (f0 + length m + io_buf_size))).
    intros fuel r w rest s t p q F RD SR SW. cbn [length relay concat] in *. rewrite <- app_assoc in RD.
    assert (G : Forall gives (rd_plan r)).
    { eapply Forall_impl; [|exact SR]. intros z (n & ->). exact Logic.I. }
    destruct (@decode_exact_ok _ _ (decoder c) SD P fuel fuel s m (concat ms ++ rest) a r (HD _ _ _ p R)
                (HB _ p) ltac:(congruence) RD G ltac:(lia) ltac:(lia)) as (s1 & r1 & X1 & P1 & RD1).
    rewrite X1. destruct (AC _ q fuel ltac:(lia)) as (t1 & X2 & EM). rewrite X2.
    destruct (encode_all_ok (fuel := fuel) w EM) as (t2 & plan & X3 & Q2 & _); [|lia|].
    { eapply Forall_impl; [|exact SW]. intros z [->|(n & ->)]; exact Logic.I. }
    rewrite X3.
    assert (SR1 : short_reads r1).
    { destruct (@C38_failing_read _ _ _ _ _ _ _ _ _ _ X1) as (used & PL & _). unfold short_reads in *.
      rewrite PL, Forall_app in SR. tauto. }
    assert (SW1 : short_writes (mkWriter (wr_data w ++ m) plan)).
    { destruct (encode_all_plan _ _ _ _ _ _ X3) as (used & PL). unfold short_writes in *.
      rewrite PL, Forall_app in SW. tauto. }
    destruct (IH fuel r1 _ rest s1 t2 P1 Q2 ltac:(lia) RD1 SR1 SW1) as (s3 & t3 & r3 & w3 & Y1 & Y2 & Y3).
    exists s3, t3, r3, w3. split; auto. split; auto. rewrite Y3. cbn [wr_data]. now rewrite <- app_assoc.
Qed.
Print Assumptions C96_every_stream.
Example C96_every_stream_example :
  wf ex_msg /\ canonical ex_msg /\ busy ex_msg = true /\ delim ex_msg = SD /\
  dec_again ex_msg = true /\ enc_again ex_msg = true /\
  Forall2 (reads ex_msg) [ex_msg_bytes; ex_msg_bytes] [ex_msg_item; ex_msg_item].
Proof.
  split; [apply ex_msg_wf|]. split. { cbn. repeat split; auto. intros w a (E & _). now rewrite E. }
  split; [reflexivity|]. split; [reflexivity|]. split; [reflexivity|]. split; [reflexivity|].
  repeat constructor; apply ex_msg_reads.
Qed.

(** A presence flag is not passed on as it was: 2 is read as "present" and written as 1. *)
Theorem C96_flag_refuted :
  let c := CFlagged NU8 (CU NU16be) in
  exists s t r' w',
    relay (decoder c) (encoder c) 1 2000 (dec_fresh c) (enc_fresh c)
          (mkReader [x02; x00; x07] []) (mkWriter [] []) = (s, t, r', w', Ok tt) /\
    rd_data r' = [] /\ wr_data w' = [x01; x00; x07].
Proof. cbv zeta. do 4 eexists. split; [vm_compute; reflexivity|]. split; reflexivity. Qed.
Print Assumptions C96_flag_refuted.
(** Nor is a mapped item whose mapping loses something. *)
Theorem C96_map_refuted :
  let c := CMap (fun n => (n / 2)%N) (fun n => (n * 2)%N) (CU NU8) in
  exists s t r' w',
    relay (decoder c) (encoder c) 1 2000 (dec_fresh c) (enc_fresh c)
          (mkReader [x07] []) (mkWriter [] []) = (s, t, r', w', Ok tt) /\
    rd_data r' = [] /\ wr_data w' = [x06].
Proof. cbv zeta. do 4 eexists. split; [vm_compute; reflexivity|]. split; reflexivity. Qed.
Print Assumptions C96_map_refuted.
