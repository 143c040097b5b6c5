(** * C104: a server over blocking I/O. *)
From Coq Require Import Lia ZifyBool ZifyNat ZifyN.
From Verif Require Import Blocking SoundProofs WritesProofs Props_Codec Props_Writes Props_Verdict Props_Trunc Props_Relay Examples.
Set Implicit Arguments.

Lemma write_all_grows : forall fuel w b w' x, wr_write_all_loop fuel w b = (w', x) -> exists p, wr_data w' = wr_data w ++ p.
Proof. intros fuel w b w' x H. destruct (write_all_within _ _ _ H) as (p & _ & _ & E). eauto. Qed.
Lemma encode_all_grows : forall S I (E : Encoder S I) fuel s w s' w' x, encode_all E fuel s w = (s', w', x) ->
  exists p, wr_data w' = wr_data w ++ p.
Proof.
  intros S I E fuel s w s' w' x. unfold encode_all.
  generalize (repeat x00 io_buf_size). generalize fuel at 2. revert s w.
  induction fuel as [|n IH]; intros s w ifuel buf; cbn [encode_all_loop]; destruct (enc_idle E s);
    try (intros [= <- <- <-]; exists []; now rewrite app_nil_r).
  destruct (enc_encode E ifuel s buf (eos_new false)) as [[s1 b1] [k| | |]]; try (intros [= <- <- <-]; exists []; now rewrite app_nil_r).
  destruct (k <=? length b1); [|intros [= <- <- <-]; exists []; now rewrite app_nil_r].
  destruct (wr_write_all w (firstn k b1)) as [w1 y] eqn:W. destruct (write_all_grows _ _ _ W) as (p & D1).
  destruct y as [[]| | |]; try (intros [= <- <- <-]; eauto).
  destruct (negb (enc_idle E s1) && (k =? 0)); [intros [= <- <- <-]; eauto|]. intros Y.
  destruct (IH _ _ _ _ Y) as (p2 & D2). exists (p ++ p2). rewrite D2, D1, app_assoc. reflexivity.
Qed.

(** Whatever the reader contains (malformed requests too) and however the reader and the writer behave: the requests the server has
    read are those the input begins with, and what it has written are the encodings of its answers to them, in order - to all of them,
    except that the answer to the last one may be missing or cut if it cannot be encoded or the writer fails.  If no call failed, it
    has read exactly [k] requests and answered them all. *)
Theorem C104_server : forall Q A B (ci : codec A) (co : codec B) (serve : Q -> A -> Q * B) k fuel q r w s t r' w' x,
  usable ci -> faithful ci -> busy ci = true -> renews ci = true -> fits (rd_data r) ->
  wf co -> ewf co -> enc_again co = true -> (forall p a, typed co (snd (serve p a))) ->
  server serve (decoder ci) (encoder co) k fuel q (dec_fresh ci) (enc_fresh co) r w = (s, t, r', w', x) ->
  exists ms is outs part pending,
    rd_data r = concat ms ++ pending ++ rd_data r' /\ Forall2 (reads ci) ms is /\ length is <= k /\
    Forall2 (writes co) (firstn (length outs) (answers serve q is)) outs /\
    wr_data w' = wr_data w ++ concat outs ++ part /\
    (length outs = length is /\ part = [] /\ (x = Ok tt -> length is = k /\ pending = []) \/
     length is = S (length outs) /\ pending = [] /\ x <> Ok tt /\
       forall j o, nth_error (answers serve q is) (length outs) = Some j -> wire co o j -> exists rest, o = part ++ rest).
Proof.
  intros Q A B ci co serve k fuel q r w s t r' w' x U FA BU RN FI WF EW EA TY X.
  destruct (proj1 term_sound A ci U) as [SND ID]. specialize (ID BU).
  destruct (proj1 term_wok B co EW) as (P & R & H & p0).
  assert (OUT : forall m a, wire co m a -> outp co a = Some m).
  { intros m a W. destruct (C60_covers_wire _ _ _ W) as [T WR].
    destruct (@C40_encode_all B co m a WF W) as (f0 & G).
    destruct (G (Datatypes.S (f0 + length m)) (mkWriter [] []) ltac:(lia) ltac:(constructor))
      as (s1 & s2 & wr' & Y1 & Y2 & _ & _).
    destruct (encode_all_sound H (ws_start H p0 Y1) Y2) as (_ & _ & out & E & _). rewrite E. f_equal.
    eapply C60_one_encoding; [|exact WR]. now apply (proj1 outp_writes). }
  revert X. generalize p0 SND ID. generalize (dec_fresh ci) (enc_fresh co). revert q r w FI.
  clear p0 SND ID. induction k as [|k IH]; intros q r w FI s0 t0 p0 SND ID; cbn [server].
  { intros [= <- <- <- <- <-]. exists [], [], [], [], []. cbn. rewrite app_nil_r. repeat split; auto. }
  destruct (decode_exact (decoder ci) fuel fuel s0 r) as [[s1 r1] y] eqn:X1.
  destruct (@decode_exact_takes _ _ _ _ _ _ _ _ _ _ X1) as (m0 & E0).
  assert (STOP : forall y', y' <> Ok tt -> rd_data r = m0 ++ rd_data r1 -> exists ms is outs part pending,
    rd_data r = concat ms ++ pending ++ rd_data r1 /\ Forall2 (reads ci) ms is /\ length is <= S k /\
    Forall2 (writes co) (firstn (length outs) (answers serve q is)) outs /\
    wr_data w = wr_data w ++ concat outs ++ part /\
    (length outs = length is /\ part = [] /\ (y' = Ok tt -> length is = S k /\ pending = []) \/
     length is = S (length outs) /\ pending = [] /\ y' <> Ok tt /\
       forall j o, nth_error (answers serve q is) (length outs) = Some j -> wire co o j -> exists rest, o = part ++ rest)).
  { intros y' NY E. exists [], [], [], [], m0. cbn. rewrite app_nil_r. repeat split; auto; try lia. left. repeat split; auto; congruence. }
  destruct y as [i| | |]; try (intros [= <- <- <- <- <-]; apply STOP; [discriminate|exact E0]). clear STOP.
  destruct (@decode_exact_sound _ _ _ _ _ _ _ _ _ _ _ _ _ _ SND ID X1) as ((m & E1 & J) & K). cbn in J. destruct (K RN) as [SND1 ID1].
  assert (FM : fits m) by (rewrite E1 in FI; eapply fits_l; eauto).
  pose proof (proj1 justifies_reads _ _ _ _ FA FM J) as RD.
  set (j := snd (serve q i)) in *.
  assert (LAST : forall y' w1 part, y' <> Ok tt -> wr_data w1 = wr_data w ++ part ->
    (forall o, wire co o j -> exists rest, o = part ++ rest) -> exists ms is outs part pending,
    rd_data r = concat ms ++ pending ++ rd_data r1 /\ Forall2 (reads ci) ms is /\ length is <= S k /\
    Forall2 (writes co) (firstn (length outs) (answers serve q is)) outs /\
    wr_data w1 = wr_data w ++ concat outs ++ part /\
    (length outs = length is /\ part = [] /\ (y' = Ok tt -> length is = S k /\ pending = []) \/
     length is = S (length outs) /\ pending = [] /\ y' <> Ok tt /\
       forall j o, nth_error (answers serve q is) (length outs) = Some j -> wire co o j -> exists rest, o = part ++ rest)).
  { intros y' w1 part NY E PR. exists [m], [i], [], part, []. cbn [concat app length firstn answers]. rewrite app_nil_r.
    split; [exact E1|]. split; [repeat constructor; exact RD|]. split; [lia|]. split; [constructor|]. split; [exact E|].
    right. split; [reflexivity|]. split; [reflexivity|]. split; [exact NY|]. cbn. intros j' o [= <-]. apply PR. }
  destruct (enc_start (encoder co) fuel t0 j) as [t1 y] eqn:X2.
  destruct y as [[]| | |]; try (intros [= <- <- <- <- <-]; apply LAST with (part := []); [discriminate|now rewrite app_nil_r|intros o _; exists o; reflexivity]).
  pose proof (ws_start H p0 X2) as r2.
  destruct (encode_all (encoder co) fuel t1 w) as [[t2 w2] y] eqn:X3.
  assert (PART : y <> Ok tt -> exists part, wr_data w2 = wr_data w ++ part /\ forall o, wire co o j -> exists rest, o = part ++ rest).
  { intros _. destruct (outp co j) as [out|] eqn:O.
    - destruct (@encode_all_within _ _ _ _ _ _ _ _ H _ _ _ _ _ _ _ _ _ r2 X3) as (p & q' & E2 & D2).
      exists p. split; [exact D2|]. intros o W. rewrite (OUT _ _ W) in O. injection O as ->. exists q'. exact E2.
    - edestruct encode_all_grows as (p & D2); [exact X3|]. exists p. split; [exact D2|]. intros o W. rewrite (OUT _ _ W) in O. discriminate. }
  destruct y as [[]| | |]; try (destruct PART as (part & D2 & PR); [discriminate|]; intros [= <- <- <- <- <-]; eapply LAST; [discriminate|exact D2|exact PR]).
  clear LAST PART.
  destruct (encode_all_sound H r2 X3) as (I1 & I2 & out & E3 & D3).
  intros Y. assert (F1 : fits (rd_data r1)).
  { unfold fits in *. rewrite E1, len_app in FI. lia. }
  destruct (IH _ _ _ F1 _ _ (proj2 (ws_rest H EA) _ _ I2 I1) SND1 (ID1 BU) Y) as (ms & is & outs & part & pe & G1 & G2 & G3 & G4 & G5 & G6).
  exists (m :: ms), (i :: is), (out :: outs), part, pe. cbn [concat length firstn answers nth_error].
  split; [rewrite E1, G1, <- app_assoc; reflexivity|]. split; [constructor; assumption|]. split; [lia|].
  split; [constructor; [apply (proj1 outp_writes); [apply TY|exact E3]|exact G4]|].
  split; [rewrite G5, D3, <- !app_assoc; reflexivity|].
  destruct G6 as [(L & -> & Z)|(L & -> & NX & Z)]; [left|right].
  - split; [lia|]. split; [reflexivity|]. intro Q0. destruct (Z Q0). split; [lia|assumption].
  - split; [lia|]. split; [reflexivity|]. split; [exact NX|exact Z].
Qed.
Print Assumptions C104_server.

(** Requests that are answered with their number. *)
Definition ex_count {A} (n : N) (_ : A) : N * N := (((n + 1) mod 65536)%N, ((n + 1) mod 65536)%N).
Lemma ex_count_typed : forall A n (a : A), typed (CU NU16be) (snd (ex_count n a)).
Proof. intros A n a. cbn. apply N.mod_lt. discriminate. Qed.
Example C104_server_example :
  let r := mkReader (ex_msg_bytes ++ ex_msg_bytes ++ firstn 7 ex_msg_bytes) [RdSome 2; RdSome 0] in
  let w := mkWriter [x55] [WrSome 0; WrErr IoInterrupted] in
  usable ex_msg /\ faithful ex_msg /\ busy ex_msg = true /\ renews ex_msg = true /\ fits (rd_data r) /\
  wf (CU NU16be) /\ ewf (CU NU16be) /\ enc_again (CU NU16be) = true /\
  (forall p a, typed (CU NU16be) (snd (@ex_count (list byte * N) p a))) /\
  exists s t r' w',
    server ex_count (decoder ex_msg) (encoder (CU NU16be)) 3 2000 0%N (dec_fresh ex_msg) (enc_fresh (CU NU16be)) r w
      = (s, t, r', w', Err UnexpectedEos) /\ wr_data w' = [x55; x00; x01; x00; x02].
Proof.
  cbv zeta. split; [apply ex_msg_usable|]. split; [apply ex_msg_faithful|].
  split; [reflexivity|]. split; [reflexivity|]. split; [discriminate|].
  split; [cbn; auto|]. split; [cbn; auto|]. split; [reflexivity|]. split; [apply ex_count_typed|].
  do 4 eexists. split; [vm_compute; reflexivity|reflexivity].
Qed.

(** If the reader and the writer do not fail, every stream of requests whose answers have an encoding is served: the server reads
    exactly the requests and writes exactly the answers. *)
Theorem C104_serves : forall Q A B (ci : codec A) (co : codec B) (serve : Q -> A -> Q * B) q ms reqs outs,
  wf ci -> busy ci = true -> delim ci = SD -> dec_again ci = true -> wf co -> enc_again co = true ->
  Forall2 (reads ci) ms reqs -> Forall2 (wire co) outs (answers serve q reqs) ->
  exists f0, forall fuel r w rest, f0 <= fuel ->
  rd_data r = concat ms ++ rest -> short_reads r -> short_writes w ->
  exists s t r' w',
    server serve (decoder ci) (encoder co) (length ms) fuel q (dec_fresh ci) (enc_fresh co) r w = (s, t, r', w', Ok tt) /\
    rd_data r' = rest /\ wr_data w' = wr_data w ++ concat outs.
Proof.
  intros Q A B ci co serve q ms reqs outs WI BU M DA WO EA HF HO.
  pose proof (proj1 term_dec_ok A ci WI) as DO. unfold code_dec_ok in DO. rewrite DA, M, BU in DO.
  destruct (dec_ok_again DO) as (P & HD & H0 & HB). specialize (HB (or_introl eq_refl)).
  pose proof (proj1 term_enc_ok B co WO) as EO. unfold code_enc_ok in EO. rewrite EA in EO.
  destruct (enc_ok_again EO) as (Z & HE & K0 & _).
  cut (exists f0, forall fuel r w rest s t, P s -> Z t -> f0 <= fuel ->
    rd_data r = concat ms ++ rest -> short_reads r -> short_writes w ->
    exists s' t' r' w', server serve (decoder ci) (encoder co) (length ms) fuel q s t r w = (s', t', r', w', Ok tt) /\
      rd_data r' = rest /\ wr_data w' = wr_data w ++ concat outs).
  { intros (f0 & G). exists f0. intros. eapply G; eauto. }
  clear H0 K0. revert q outs HO. induction HF as [|m a ms items R HF IH0]; intros q outs HO; cbn [answers] in HO; inversion HO; subst; clear HO.
  - exists 0. intros fuel r w rest s t p z _ RD _ _. cbn. exists s, t, r, w. now rewrite app_nil_r.
  - rename x into o, l into outs'. destruct (IH0 _ _ H3) as (f1 & IH).
    destruct (HE _ _ H2) as (f0 & AC).
    exists (f1 + Datatypes.S (Datatypes.S (f0 + length m + length o + io_buf_size))).
    intros fuel r w rest s t p z F RD SR SW. cbn [length server concat] in *. rewrite <- app_assoc in RD.
    assert (G : Forall gives (rd_plan r)).
    { eapply Forall_impl; [|exact SR]. intros y (n & ->). exact Logic.I. }
    destruct (@decode_exact_ok _ _ (decoder ci) SD P fuel fuel s m (concat ms ++ rest) a r (HD _ _ _ p R)
                (HB _ p) ltac:(congruence) RD G ltac:(lia) ltac:(lia)) as (s1 & r1 & X1 & P1 & RD1).
    rewrite X1. destruct (AC _ z fuel ltac:(lia)) as (t1 & X2 & EM). rewrite X2.
    destruct (encode_all_ok (fuel := fuel) w EM) as (t2 & plan & X3 & Q2 & _); [|lia|].
    { eapply Forall_impl; [|exact SW]. intros y [->|(n & ->)]; exact Logic.I. }
    rewrite X3.
    assert (SR1 : short_reads r1).
    { destruct (@C38_failing_read _ _ _ _ _ _ _ _ _ _ X1) as (used & PL & _). unfold short_reads in *.
      rewrite PL, Forall_app in SR. tauto. }
    assert (SW1 : short_writes (mkWriter (wr_data w ++ o) plan)).
    { destruct (encode_all_plan _ _ _ _ _ _ X3) as (used & PL). unfold short_writes in *.
      rewrite PL, Forall_app in SW. tauto. }
    destruct (IH fuel r1 _ rest s1 t2 P1 Q2 ltac:(lia) RD1 SR1 SW1) as (s3 & t3 & r3 & w3 & Y1 & Y2 & Y3).
    exists s3, t3, r3, w3. split; auto. split; auto. rewrite Y3. cbn [wr_data]. now rewrite <- app_assoc.
Qed.
Print Assumptions C104_serves.
Example C104_serves_example :
  wf ex_msg /\ busy ex_msg = true /\ delim ex_msg = SD /\ dec_again ex_msg = true /\
  wf (CU NU16be) /\ enc_again (CU NU16be) = true /\
  Forall2 (reads ex_msg) [ex_msg_bytes; ex_msg_bytes] [ex_msg_item; ex_msg_item] /\
  Forall2 (wire (CU NU16be)) [[x00; x01]; [x00; x02]] (answers ex_count 0%N [ex_msg_item; ex_msg_item]).
Proof.
  split; [apply ex_msg_wf|]. split; [reflexivity|]. split; [reflexivity|]. split; [reflexivity|].
  split; [cbn; auto|]. split; [reflexivity|]. split; [repeat constructor; apply ex_msg_reads|].
  repeat constructor.
Qed.

(** A server whose writer has failed once must not be called again: the request it had read is gone from the reader, its answer is gone
    from the encoder, and the next call goes on with the next request as if nothing had happened. *)
Theorem C104_retry_refuted :
  let c := CU NU16be in
  exists s t r' w' s2 t2 r2 w2,
    server ex_count (decoder c) (encoder c) 1 2000 0%N (dec_fresh c) (enc_fresh c)
      (mkReader [x00; x07; x00; x08] []) (mkWriter [] [WrErr IoOther]) = (s, t, r', w', Err Other) /\
    rd_data r' = [x00; x08] /\ wr_data w' = [] /\
    server ex_count (decoder c) (encoder c) 1 2000 1%N s t r' w' = (s2, t2, r2, w2, Ok tt) /\
    rd_data r2 = [] /\ wr_data w2 = [x00; x02].
Proof.
  cbv zeta. do 8 eexists. split; [vm_compute; reflexivity|]. split; [reflexivity|]. split; [reflexivity|].
  split; [vm_compute; reflexivity|]. split; reflexivity.
Qed.
Print Assumptions C104_retry_refuted.
