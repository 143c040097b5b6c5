(** * C97: protocols in which the next codec depends on the items so far. *)
From Coq Require Import Lia ZifyBool ZifyNat ZifyN.
From Verif Require Import Proto SoundProofs UniverseProofs IoProofs LinkProofs DuplexProofs TruncProofs Props_Codec
  Props_Receive Props_Relay Props_Trunc Examples.
Set Implicit Arguments.

(** ** [decode_exact] *)
Theorem C97_follow : forall R (p : proto R) ws x rest r fuel,
  each receivable p -> speaks p ws x ->
  rd_data r = concat ws ++ rest -> short_reads r -> Forall (fun w => length w + 2 <= fuel) ws ->
  exists r', follow p fuel r = (r', Ok x) /\ rd_data r' = rest.
Proof.
  intros R p ws x rest r fuel EA SP. revert r. induction SP as [x|A c next w a ws x RD SP IH]; intros r Q SR FU; cbn [follow].
  - exists r. auto.
  - destruct EA as [(WF & DL & BU) EA]. inversion FU; subst. cbn [concat] in Q. rewrite <- app_assoc in Q.
    destruct (@C37_decode_exact A c w a (concat ws ++ rest) r fuel WF (or_introl BU) RD Q) as (s & r1 & X & Q1); auto.
    { congruence. }
    rewrite X. apply IH; auto.
    destruct (@C38_failing_read _ _ _ _ _ _ _ _ _ _ X) as (used & PL & _). unfold short_reads in *.
    rewrite PL, Forall_app in SR. tauto.
Qed.
Print Assumptions C97_follow.
(** Whatever the reader contains and does: a result is that of a run of the protocol, made of exactly the bytes
    taken from the reader. *)
Theorem C97_follow_sound : forall R (p : proto R) fuel r r' x,
  each judged p -> fits (rd_data r) -> follow p fuel r = (r', Ok x) ->
  exists ws, rd_data r = concat ws ++ rd_data r' /\ speaks p ws x.
Proof.
  intros R p fuel r r' x. revert r. induction p as [y|A c next IH]; intros r EA FI; cbn [follow].
  - intros [= -> ->]. exists []. split; [reflexivity|constructor].
  - destruct EA as [(U & FA & BU) EA].
    destruct (decode_exact (decoder c) fuel fuel (dec_fresh c) r) as [[s r1] [a| | |]] eqn:X; try discriminate.
    destruct (proj1 term_sound A c U) as [SND ID].
    destruct (@decode_exact_sound _ _ _ _ _ _ _ _ _ _ _ _ _ _ SND (ID BU) X) as ((w & E & J) & _). cbn in J.
    assert (FW : fits w) by (rewrite E in FI; eapply fits_l; eauto).
    assert (F1 : fits (rd_data r1)) by (unfold fits in *; rewrite E, len_app in FI; lia).
    intros Y. destruct (IH a r1 (EA a) F1 Y) as (ws & E2 & SP). exists (w :: ws). cbn. rewrite <- app_assoc, <- E2.
    split; auto. constructor 2 with (a := a); auto. now apply (proj1 justifies_reads).
Qed.
Print Assumptions C97_follow_sound.

(** ** One read buffer for all decoders *)
Section Sound.
Context {R : Type} (fuel : nat).
Definition tsound (t : talk R) (acc : list byte) : Prop :=
  match t with
  | TDone _ => acc = []
  | TAt c s next => usable c /\ faithful c /\ sound_from (decoder c) (justifies c) (renews c) (busy c) s acc /\
      dec_idle (decoder c) s = false /\ forall a, each judged (next a)
  end.
Definition tspeaks (t : talk R) (acc : list byte) (w : list byte) (x : R) : Prop :=
  match t with
  | TDone y => w = [] /\ y = x
  | TAt c s next => exists w1 ws a, w = w1 ++ concat ws /\ reads c (acc ++ w1) a /\ speaks (next a) ws x
  end.
Lemma enter_sound : forall p : proto R, each judged p -> tsound (enter p) [].
Proof.
  intros [x|A c next]; cbn; auto. intros [(U & FA & BU) EA].
  destruct (proj1 term_sound A c U) as [SND ID].
  split; [exact U|]. split; [exact FA|]. split; [exact SND|]. split; [exact (ID BU)|exact EA].
Qed.
Lemma enter_speaks : forall (p : proto R) w x, tspeaks (enter p) [] w x ->
  exists ws, w = concat ws /\ speaks p ws x.
Proof.
  intros [y|A c next] w x; cbn.
  - intros [-> ->]. exists []. split; [reflexivity|constructor].
  - intros (w1 & ws & a & -> & RD & SP). exists (w1 :: ws). split; [reflexivity|]. constructor 2 with (a := a); auto.
Qed.
Lemma fill_moves : forall rb back plan rb' r' x, rb_ok rb -> rb_fill rb (mkReader back plan) = (rb', r', x) ->
  rb_ok rb' /\ rb_capacity rb' = rb_capacity rb /\ rb_content rb ++ back = rb_content rb' ++ rd_data r'.
Proof.
  intros rb back plan rb' r' x OK H. destruct (fill_spec _ OK H) as (data & r1 & RD & OK' & C' & N' & _ & Cases).
  pose proof (reading_data RD) as QD. cbn in QD. split; [exact OK'|]. split; [exact C'|].
  assert (QR : rd_data r1 = rd_data r').
  { destruct Cases as [(_ & -> & _)|(L & o & e & R1 & E1 & _)]; [reflexivity|].
    destruct (IoProofs.rd_read_data _ _ R1) as [QR _]. destruct o as [[|? ?]|ioe]; try discriminate E1; exact QR. }
  now rewrite N', <- app_assoc, <- QR, <- QD.
Qed.
Lemma converse_sound : forall plans rb back t acc rb' back' x, rb_ok rb -> tsound t acc ->
  fits (acc ++ rb_content rb ++ back) ->
  converse fuel plans rb back t = (rb', back', Some (Ok x)) ->
  exists w, rb_content rb ++ back = w ++ rb_content rb' ++ back' /\ tspeaks t acc w x.
Proof.
  induction plans as [|plan plans IH]; intros rb back t acc rb' back' x OK TS FI; destruct t as [y|A c s next]; cbn [converse].
  - intros [= -> -> ->]. exists []. split; [reflexivity|]. split; reflexivity.
  - discriminate.
  - intros [= -> -> ->]. exists []. split; [reflexivity|]. split; reflexivity.
  - destruct TS as (U & FA & SND & ID & EA).
    destruct (rb_fill rb (mkReader back plan)) as [[rb1 r1] [[]| | |]] eqn:FL; try discriminate.
    destruct (fill_moves _ _ OK FL) as (OK1 & _ & Q1). unfold decode_from_read_buf.
    rewrite (window_some OK1). fold (rb_content rb1).
    destruct (dec_decode (decoder c) fuel s (rb_content rb1) _) as [s1 [k| | |]] eqn:X; try discriminate.
    pose proof (sound_closed (decoder c) (justifies c) (renews c) (busy c)) as CL.
    destruct (sd_decode CL SND ID X) as (LK & SND1). destruct (consume_ok OK1 LK) as (OK2 & C2 & _ & _).
    assert (Q2 : rb_content rb ++ back = firstn k (rb_content rb1) ++ rb_content (rb_consume rb1 k) ++ rd_data r1).
    { now rewrite Q1, C2, app_assoc, firstn_skipn. }
    destruct (dec_idle (decoder c) s1) eqn:ID1.
    + destruct (dec_finish (decoder c) s1) as [s2 [a| | |]] eqn:FN; try discriminate.
      destruct (sd_finish CL SND1 FN) as [J _]. intros Y.
      assert (F2 : fits (rb_content (rb_consume rb1 k) ++ rd_data r1)).
      { unfold fits in *. rewrite Q2, !len_app in FI. rewrite len_app. lia. }
      destruct (IH _ _ _ [] _ _ _ OK2 (enter_sound _ (EA a)) F2 Y) as (w & E & SP).
      destruct (enter_speaks _ _ _ SP) as (ws & -> & SP').
      exists (firstn k (rb_content rb1) ++ concat ws). rewrite Q2, <- app_assoc, <- E. split; [reflexivity|].
      exists (firstn k (rb_content rb1)), ws, a. split; [reflexivity|]. split; [|exact SP'].
      apply (proj1 justifies_reads); auto. unfold fits in *. rewrite Q2, !len_app in FI. rewrite len_app. lia.
    + intros Y.
      assert (TS1 : tsound (TAt c s1 next) (acc ++ firstn k (rb_content rb1))) by (cbn; auto).
      assert (F2 : fits ((acc ++ firstn k (rb_content rb1)) ++ rb_content (rb_consume rb1 k) ++ rd_data r1)).
      { rewrite <- app_assoc, <- Q2. exact FI. }
      destruct (IH _ _ _ _ _ _ _ OK2 TS1 F2 Y) as (w & E & w1 & ws & a & -> & RD & SP).
      exists (firstn k (rb_content rb1) ++ w1 ++ concat ws). rewrite Q2, <- app_assoc, <- E. split; [reflexivity|].
      exists (firstn k (rb_content rb1) ++ w1), ws, a. rewrite app_assoc. rewrite <- app_assoc in RD. auto.
Qed.
End Sound.
Theorem C97_converse_sound : forall R (p : proto R) fuel plans inner back rb' back' x,
  each judged p -> fits back ->
  converse fuel plans (rb_new inner) back (enter p) = (rb', back', Some (Ok x)) ->
  exists ws, back = concat ws ++ rb_content rb' ++ back' /\ speaks p ws x.
Proof.
  intros R p fuel plans inner back rb' back' x EA FI X.
  assert (OK : rb_ok (rb_new inner)) by (split; [cbn; lia|right; auto]).
  destruct (@converse_sound R fuel plans (rb_new inner) back (enter p) [] rb' back' x OK (enter_sound _ EA) FI X) as (w & E & SP).
  destruct (enter_speaks _ _ _ SP) as (ws & -> & S2). exists ws. auto.
Qed.
Print Assumptions C97_converse_sound.

Section Complete.
Context {R : Type} (fuel cap : nat) (x : R) (rest : list byte).
Hypotheses (FU : cap < fuel) (CAP : 0 < cap) (CM : (N.of_nat cap <= isize_max)%N).
(** [stream] is what is missing from the run, of [n] messages. *)
Definition tgoes (t : talk R) (n : nat) (stream : list byte) : Prop :=
  match t with
  | TDone y => y = x /\ stream = []
  | TAt c s next => dec_idle (decoder c) s = false /\ (forall a, each receivable (next a)) /\
      exists P w1 a ws, parses (decoder c) SD P s w1 a /\ speaks (next a) ws x /\
        stream = w1 ++ concat ws /\ n = Datatypes.S (length ws)
  end.
Lemma enter_goes : forall p ws, each receivable p -> speaks p ws x -> tgoes (enter p) (length ws) (concat ws).
Proof.
  intros p ws EA SP. cut (forall y, speaks p ws y -> y = x -> tgoes (enter p) (length ws) (concat ws)); [eauto|].
  clear SP. intros y SP. destruct SP as [y|A c next w a ws y RD SP]; cbn; [auto|]. intros ->.
  destruct EA as [(WF & DL & BU) EA].
  destruct (proj1 term_dec_ok A c WF) as (P & Q & HD & H0 & _ & HB). rewrite DL in *.
  split; [apply HB; auto|]. split; [exact EA|]. exists Q, w, a, ws. split; [|auto]. apply HD; auto.
Qed.
Lemma converse_ok : forall plans rb back t n stream, true_end plans -> rb_ok rb -> rb_capacity rb = cap ->
  (rb_state rb = StEos -> back = []) -> tgoes t n stream -> rb_content rb ++ back = stream ++ rest ->
  exists rb' back' o, converse fuel plans rb back t = (rb', back', o) /\
    ((o = None /\ willing_turns plans < length stream + n) \/
     (o = Some (Ok x) /\ rb_content rb' ++ back' = rest) \/
     (exists k, o = Some (Err k) /\ read_failed plans k)).
Proof.
  induction plans as [|plan plans IH]; intros rb back t n stream TE OK CC EO TG Q; destruct t as [y|A c s next]; cbn [converse].
  - destruct TG as [-> ->]. eexists _, _, _. split; [reflexivity|]. right. left. auto.
  - destruct TG as (_ & _ & P & w1 & a & ws & _ & _ & _ & ->). eexists _, _, _. split; [reflexivity|]. left. split; [reflexivity|].
    cbn. lia.
  - destruct TG as [-> ->]. eexists _, _, _. split; [reflexivity|]. right. left. auto.
  - destruct TG as (ID & EA & P & w1 & a & ws & PA & SP & -> & ->).
    destruct (rb_fill rb (mkReader back plan)) as [[rb1 r1] y] eqn:FL.
    destruct (@fill_once _ _ (decoder CNull) true (fun _ => False) (fun _ _ => False) fuel cap
                (fun _ _ _ f _ => False_ind _ f) FU CAP CM tt rb back plan rb1 r1 y) as (OK1 & C1 & Q1 & EO1 & [->|(e & NW & IN & ->)] & WI); auto.
    { apply TE. left. reflexivity. }
    2:{ eexists _, _, _. split; [reflexivity|]. right. right. exists (reported_kind e). split; [reflexivity|]. exists plan, e. cbn. auto. }
    assert (TE' : true_end plans) by (intros p IN; apply TE; right; exact IN).
    assert (RF : forall k, read_failed plans k -> read_failed (plan :: plans) k).
    { intros k (p & e & X1 & X2 & X3). exists p, e. cbn; auto. }
    unfold decode_from_read_buf. rewrite (window_some OK1). fold (rb_content rb1). rewrite Q1 in Q.
    set (e := eos_new (st_is_eos (rb_state rb1))).
    assert (LB : length (rb_content rb1) <= cap).
    { unfold rb_content. rewrite stretch_length by apply OK1. pose proof OK1 as [L _]. unfold rb_capacity in C1. lia. }
    assert (TR : truthful SD (rb_content rb1) (rd_data r1) e).
    { unfold e. destruct (rb_state rb1) eqn:SE; [left; reflexivity| |left; reflexivity..].
      right. left. rewrite (EO1 eq_refl). split; [reflexivity|]. pose proof isize_u64. unfold len. cbn. lia. }
    rewrite <- app_assoc in Q. destruct PA as (RR & SO & H).
    destruct (@split_prefix w1 (concat ws ++ rest) (rb_content rb1) (rd_data r1)) as [(z & -> & Q2)|(z & NZ & Q2 & Q3)]; [congruence| |].
    + destruct z as [|z0 z].
      * (* the last byte of the message is the last byte of the buffer *)
        rewrite app_nil_r in *. cbn [app] in Q2.
        destruct (so_last SO (extra := []) (rest := rd_data r1) (fuel := fuel) (e := e) H ID) as (s1 & X & ID1 & H1);
          [congruence|rewrite app_nil_r; exact TR|rewrite app_nil_r; lia|].
        rewrite app_nil_r in X. rewrite X. cbn [done_idle] in ID1. rewrite ID1.
        destruct (so_idle SO H1 ID1) as (_ & _ & s2 & -> & _).
        destruct (consume_ok OK1 (le_n _)) as (OK2 & C2 & CC2 & S2). rewrite skipn_all in C2.
        destruct (IH (rb_consume rb1 (length (rb_content rb1))) (rd_data r1) (enter (next a)) (length ws) (concat ws) TE' OK2)
          as (rb' & back' & o & X1 & X2).
        { congruence. } { rewrite S2. exact EO1. } { apply enter_goes; auto. } { rewrite C2. exact Q2. }
        exists rb', back', o. split; [exact X1|].
        destruct X2 as [[-> L]|[X2|(k & X2 & X3)]]; [left; split; [reflexivity|]|auto|right; right; eauto].
        rewrite app_length. unfold willing_turns in *. cbn [filter]. destruct plan as [|[m| |er] pl]; cbn [length]; lia.
      * (* the buffer does not complete the message *)
        destruct (so_more SO (extra := concat ws ++ rest) (fuel := fuel) (e := e) H ID) as (s1 & X & ID1 & H1);
          [discriminate|congruence|rewrite <- Q2; exact TR|lia|].
        rewrite X, ID1.
        destruct (consume_ok OK1 (le_n _)) as (OK2 & C2 & CC2 & S2). rewrite skipn_all in C2.
        destruct (IH (rb_consume rb1 (length (rb_content rb1))) (rd_data r1) (TAt c s1 next) (Datatypes.S (length ws))
                    ((z0 :: z) ++ concat ws) TE' OK2) as (rb' & back' & o & X1 & X2).
        { congruence. } { rewrite S2. exact EO1. }
        { split; [exact ID1|]. split; [exact EA|]. exists P, (z0 :: z), a, ws. split; [exists RR; auto|auto]. }
        { rewrite C2, <- app_assoc. exact Q2. }
        exists rb', back', o. split; [exact X1|].
        destruct X2 as [[-> L]|[X2|(k & X2 & X3)]]; [left; split; [reflexivity|]|auto|right; right; eauto].
        rewrite !app_length in *. destruct (rb_content rb1) as [|b0 l] eqn:CE.
        -- assert (NWI : willing_turns (plan :: plans) = willing_turns plans).
           { unfold willing_turns. cbn [filter].
             destruct plan as [|[m| |er] pl]; try reflexivity; exfalso;
               (specialize (WI Logic.I eq_refl eq_refl); specialize (EO1 WI); rewrite EO1 in Q2; discriminate). }
           rewrite NWI. lia.
        -- unfold willing_turns in *. cbn [filter length] in *. destruct plan as [|[m| |er] pl]; cbn [length]; lia.
    + (* the buffer reaches beyond the message *)
      rewrite Q2 in TR |- *.
      destruct (so_last SO (extra := z) (rest := rd_data r1) (fuel := fuel) (e := e) H ID) as (s1 & X & ID1 & H1);
        [congruence|exact TR|rewrite <- Q2; lia|].
      rewrite X. cbn [done_idle] in ID1. rewrite ID1. destruct (so_idle SO H1 ID1) as (_ & _ & s2 & -> & _).
      assert (LK : length w1 <= length (rb_content rb1)) by (rewrite Q2, app_length; lia).
      destruct (consume_ok OK1 LK) as (OK2 & C2 & CC2 & S2). rewrite Q2, skipn_app_exact in C2.
      destruct (IH (rb_consume rb1 (length w1)) (rd_data r1) (enter (next a)) (length ws) (concat ws) TE' OK2)
        as (rb' & back' & o & X1 & X2).
      { congruence. } { rewrite S2. exact EO1. } { apply enter_goes; auto. } { rewrite C2. congruence. }
      exists rb', back', o. split; [exact X1|].
      destruct X2 as [[-> L]|[X2|(k & X2 & X3)]]; [left; split; [reflexivity|]|auto|right; right; eauto].
      rewrite app_length. unfold willing_turns in *. cbn [filter]. destruct plan as [|[m| |er] pl]; cbn [length]; lia.
Qed.
End Complete.

(** A run of the protocol, then [rest].  However the bytes arrive, whatever the size of the buffer: the loop ends with the result of the run,
    and what the last decoder has not taken is still there, in the buffer and in the connection; unless a read fails.  It ends
    after at most as many willing turns as there are bytes and messages. *)
Theorem C97_converse : forall R (p : proto R) ws x rest inner plans fuel,
  each receivable p -> speaks p ws x -> 0 < length inner < fuel -> (N.of_nat (length inner) <= isize_max)%N ->
  true_end plans ->
  exists rb' back' o, converse fuel plans (rb_new inner) (concat ws ++ rest) (enter p) = (rb', back', o) /\
    ((o = None /\ willing_turns plans < length (concat ws) + length ws) \/
     (o = Some (Ok x) /\ rb_content rb' ++ back' = rest) \/
     (exists k, o = Some (Err k) /\ read_failed plans k)).
Proof.
  intros R p ws x rest inner plans fuel EA SP [I0 FU] IM TE.
  assert (OK : rb_ok (rb_new inner)) by (split; [cbn; lia|right; auto]).
  apply (@converse_ok R fuel (length inner) x rest FU I0 IM plans (rb_new inner)); auto.
  - discriminate.
  - apply enter_goes; auto.
Qed.
Print Assumptions C97_converse.

(** Both programs agree, on every stream: what the one with the buffer makes of the stream, the one with
    [decode_exact] makes of it, with the same bytes. *)
Theorem C97_agree : forall R (p : proto R) fuel plans inner back rb' back' x,
  each receivable p -> each judged p -> fits back ->
  converse fuel plans (rb_new inner) back (enter p) = (rb', back', Some (Ok x)) ->
  forall r fuel', rd_data r = back -> short_reads r -> length back + 2 <= fuel' ->
  exists r', follow p fuel' r = (r', Ok x) /\ rd_data r' = rb_content rb' ++ back'.
Proof.
  intros R p fuel plans inner back rb' back' x ER EJ FI X r fuel' RD SR FU.
  destruct (C97_converse_sound _ _ _ _ EJ FI X) as (ws & E & SP).
  eapply C97_follow; eauto; [congruence|]. apply Forall_forall. intros w IN.
  assert (length w <= length (concat ws)); [|rewrite E, app_length in FU; lia].
  clear - IN. induction ws as [|v ws IH]; cbn in *; [contradiction|]. rewrite app_length. destruct IN as [->|IN]; [lia|].
  specialize (IH IN). lia.
Qed.
Print Assumptions C97_agree.

(** ** The sender *)
Lemma tells_speaks : forall R (p : proto R) ms ws x, tells p ms ws x -> speaks p ws x.
Proof.
  intros R p ms ws x H. induction H; [constructor|]. constructor 2 with (a := a); auto. now apply (proj1 wire_reads).
Qed.
Theorem C97_tell : forall R (p : proto R) ms ws x,
  each receivable p -> tells p ms ws x ->
  exists f0, forall fuel w, f0 <= fuel -> short_writes w ->
  exists w', tell fuel ms w = (w', Ok tt) /\ wr_data w' = wr_data w ++ concat ws.
Proof.
  intros R p ms ws x EA H. induction H as [x|A c next v a ms ws x W H IH].
  - exists 0. intros fuel w _ _. exists w. cbn. now rewrite app_nil_r.
  - destruct EA as [(WF & _ & _) EA]. destruct (IH (EA a)) as (f1 & G1).
    destruct (@C40_encode_all A c v a WF W) as (f0 & G0). exists (f1 + Datatypes.S (f0 + length v)).
    intros fuel w F SW. destruct (G0 fuel w ltac:(lia) SW) as (s1 & s2 & w1 & X1 & X2 & D & _).
    cbn [tell]. rewrite X1, X2.
    assert (SW1 : short_writes w1).
    { destruct (encode_all_plan _ _ _ _ _ _ X2) as (used & PL). unfold short_writes in *.
      rewrite PL, Forall_app in SW. tauto. }
    destruct (G1 fuel w1 ltac:(lia) SW1) as (w2 & Y1 & Y2). exists w2. split; [exact Y1|].
    rewrite Y2, D. cbn [concat]. now rewrite app_assoc.
Qed.
Print Assumptions C97_tell.
(** Both sides together: what was told is heard. *)
Corollary C97_told_and_heard : forall R (p : proto R) ms ws x,
  each receivable p -> tells p ms ws x ->
  exists f0, forall fuel w, f0 <= fuel -> short_writes w -> wr_data w = [] ->
  exists w', tell fuel ms w = (w', Ok tt) /\
  forall inner plans fuel' rest, 0 < length inner < fuel' -> (N.of_nat (length inner) <= isize_max)%N ->
    true_end plans -> (forall k, ~ read_failed plans k) -> length (wr_data w') + length ms <= willing_turns plans ->
    exists rb' back', converse fuel' plans (rb_new inner) (wr_data w' ++ rest) (enter p) = (rb', back', Some (Ok x)) /\
      rb_content rb' ++ back' = rest.
Proof.
  intros R p ms ws x EA H. destruct (C97_tell EA H) as (f0 & G). exists f0. intros fuel w F SW W0.
  destruct (G fuel w F SW) as (w' & X & D). rewrite W0 in D. cbn in D. exists w'. split; [exact X|].
  intros inner plans fuel' rest I0 IM TE NF L. rewrite D in *.
  destruct (@C97_converse R p ws x rest inner plans fuel' EA (tells_speaks H) I0 IM TE) as (rb' & back' & o & Y & Cases).
  assert (LM : length ws = length ms) by (clear -H; induction H; cbn; congruence).
  destruct Cases as [(_ & Z)|[(-> & Q)|(k & _ & Z)]]; [lia| |elim (NF k); exact Z]. eauto.
Qed.
Print Assumptions C97_told_and_heard.

(** A version byte selects how the length of the payload is written. *)
Definition ex_proto : proto (list byte) :=
  PNext (CU NU8) (fun v =>
    if (v =? 1)%N then PNext (CPrefixed NU8 len CRest) (fun b => PDone b)
    else PNext (CU NU16le) (fun n => PNext (CPrefixed NU32be len CRest) (fun b => PDone (firstn (N.to_nat n) b)))).
Definition ex_proto_messages : list message :=
  [existT _ _ (CU NU8, 2%N); existT _ _ (CU NU16le, 1%N); existT _ _ (CPrefixed NU32be len CRest, [xaa; xbb])].
Definition ex_proto_bytes : list (list byte) := [[x02]; [x01; x00]; [x00; x00; x00; x02; xaa; xbb]].
Lemma ex_proto_receivable : each receivable ex_proto.
Proof. cbn. split; [repeat split|]. intros v. destruct (v =? 1)%N; cbn; repeat split. Qed.
Lemma ex_proto_tells : tells ex_proto ex_proto_messages ex_proto_bytes [xaa].
Proof.
  apply tells_next; [split; reflexivity|]. apply tells_next; [split; reflexivity|].
  apply tells_next; [|exact (tells_done [xaa])]. cbn. split; [vm_compute; discriminate|].
  exists [x00; x00; x00; x02], [xaa; xbb]. repeat split; auto; vm_compute; discriminate.
Qed.
Example C97_example :
  each receivable ex_proto /\ each judged ex_proto /\
  tells ex_proto ex_proto_messages ex_proto_bytes [xaa] /\ speaks ex_proto ex_proto_bytes [xaa] /\
  (exists rb', converse 9 [[RdSome 2]; [RdErr IoWouldBlock]; []; []; []; []; []; []; []; []; []; []]
    (rb_new [x00; x00; x00; x00]) (concat ex_proto_bytes ++ [x77; x78; x79; x7a]) (enter ex_proto)
    = (rb', [x7a], Some (Ok [xaa])) /\ rb_content rb' = [x77; x78; x79]).
Proof.
  split; [apply ex_proto_receivable|]. split.
  { cbn. split; [repeat split; auto|]. intros v. destruct (v =? 1)%N; cbn; repeat split; auto. }
  split; [apply ex_proto_tells|]. split; [apply (tells_speaks ex_proto_tells)|].
  eexists. split; [vm_compute; reflexivity|]. reflexivity.
Qed.
