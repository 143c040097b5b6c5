(** * Theorems about streams of which nothing is known: C74 (an encoding means one item), C75 (the
    verdict on a stream does not depend on how it is cut).

    C01 and C02 start from the encoding of an item.  Here the stream is arbitrary. *)
From Coq Require Import Lia ZifyBool ZifyNat ZifyN.
From Verif Require Import Session Drive SoundProofs CodecProofs Examples Props_Codec.
Set Implicit Arguments.

(** ** C74: an encoding means one item, and where it ends is part of it *)

Lemma app_prefix : forall A (a b c d : list A), a ++ b = c ++ d ->
  (exists x, c = a ++ x /\ b = x ++ d) \/ (exists x, a = c ++ x /\ d = x ++ b).
Proof.
  intros A a. induction a as [|y a IH]; intros b [|z c] d H; cbn in *.
  - left. exists []. auto.
  - left. exists (z :: c). auto.
  - right. exists (y :: a). auto.
  - injection H as -> H. destruct (IH _ _ _ H) as [(x & -> & ->)|(x & -> & ->)]; eauto.
Qed.

(** No encoding is the beginning of another one. *)
Theorem C74_prefix_free : forall A (c : codec A) w a x a',
  wf c -> delim c = SD -> fits (w ++ x) ->
  reads c w a -> reads c (w ++ x) a' -> x = [] /\ a = a'.
Proof.
  intros A c w a x a' WF M FI R R'.
  set (fuel := S (length (w ++ x))).
  assert (L : (len (w ++ x) <= u64_max)%N) by (unfold fits, isize_max, u64_max in *; lia).
  destruct (@C01_chunk_invariance A c w a x [(length (w ++ x), HUnknown)] fuel WF M R L ltac:(lia))
    as (s & X1 & X2 & X3).
  destruct (@C01_chunk_invariance A c (w ++ x) a' [] [(length (w ++ x), HUnknown)] fuel WF M R'
              ltac:(rewrite app_nil_r; auto) ltac:(rewrite app_nil_r; lia))
    as (s' & Y1 & Y2 & Y3).
  rewrite app_nil_r, X1 in Y1. cbn [offered fold_right fst] in *. rewrite Nat.add_0_r in *.
  assert (LL : length w <= length (w ++ x)) by (rewrite app_length; lia).
  rewrite (Nat.min_l (length w)) in Y1 by auto. rewrite Nat.min_id, skipn_all, skipn_app_exact in Y1.
  injection Y1 as -> ->. split; auto.
  assert (id : dec_idle (decoder c) s' = true).
  { apply X2. split; auto. left; discriminate. }
  specialize (X3 id). specialize (Y3 id). congruence.
Qed.
Print Assumptions C74_prefix_free.

(** A byte string is the encoding of at most one item. *)
Theorem C74_one_item : forall A (c : codec A) w a a',
  wf c -> fits w -> reads c w a -> reads c w a' -> a = a'.
Proof.
  intros A c w a a' WF FI R R'.
  destruct (delim c) eqn:M.
  - eapply (@C74_prefix_free A c w a [] a'); rewrite ?app_nil_r; auto.
  - pose (sched := [(length w, HUnknown)]). assert (EN : ends sched) by (repeat constructor; discriminate).
    assert (ND : delim c <> ToEos) by congruence.
    destruct (@C01_chunk_invariance_bounded A c w a sched (S (length w)) WF ND R EN ltac:(lia))
      as (s & X1 & X2 & X3 & X4).
    destruct (@C01_chunk_invariance_bounded A c w a' sched (S (length w)) WF ND R' EN ltac:(lia))
      as (s' & Y1 & Y2 & Y3 & Y4).
    rewrite X1 in Y1. injection Y1 as ->.
    assert (id : dec_idle (decoder c) s' = true) by (apply X3; [discriminate|cbn; lia]).
    specialize (X4 id). specialize (Y4 id). congruence.
  - pose (sched := [(length w, HExact)]). assert (EN : ends sched) by (repeat constructor; discriminate).
    destruct (@C02_chunk_invariance_eos A c w a sched (S (length w)) WF M R EN ltac:(lia))
      as (s & X1 & X2 & X3).
    destruct (@C02_chunk_invariance_eos A c w a' sched (S (length w)) WF M R' EN ltac:(lia))
      as (s' & Y1 & Y2 & Y3).
    rewrite X1 in Y1. injection Y1 as ->. cbn [announced sched] in X2.
    rewrite Nat.leb_refl in X2. specialize (X3 X2). specialize (Y3 X2). congruence.
Qed.
Print Assumptions C74_one_item.

(** A stream of items can be split into items in one way only. *)
Theorem C74_one_sequence : forall A (c : codec A) w l l',
  wf c -> delim c = SD -> nonempty c = true -> fits w ->
  sequence_of (reads c) w l -> sequence_of (reads c) w l' -> l = l'.
Proof.
  intros A c w l l' WF M NE FI (ws & -> & F) (ws' & E & F'). revert ws' l' E F'.
  induction F as [|v a ws l R F IH]; intros ws' l' E F'.
  - destruct F' as [|v' a' ws' l' R' F']; auto. cbn in E.
    destruct v'; [|discriminate]. destruct (proj1 nonempty_ok _ c NE _ _ R' eq_refl).
  - destruct F' as [|v' a' ws' l' R' F'].
    + cbn in E. destruct v; [|discriminate]. destruct (proj1 nonempty_ok _ c NE _ _ R eq_refl).
    + cbn [concat] in *.
      assert (FV : fits v) by (eapply fits_l; eauto).
      assert (FV' : fits v') by (rewrite E in FI; eapply fits_l; eauto).
      assert (X : v = v' /\ a = a').
      { destruct (app_prefix _ _ _ _ E) as [(x & -> & _)|(x & -> & _)].
        - destruct (@C74_prefix_free _ c _ _ _ _ WF M FV' R R') as (-> & ->). rewrite app_nil_r. auto.
        - destruct (@C74_prefix_free _ c _ _ _ _ WF M FV R' R) as (-> & ->). rewrite app_nil_r. auto. }
      destruct X as (<- & <-). apply app_inv_head in E. f_equal. eapply IH; eauto.
      eapply fits_r; eauto.
Qed.
Print Assumptions C74_one_sequence.

(** Different items have different encodings, and neither is the beginning of the other: what the
    encoder really outputs tells the items apart. *)
Theorem C74_encoder : forall A (c : codec A) w a w' a',
  wf c -> enc_again c = true -> wire c w a -> wire c w' a' -> fits w -> fits w' ->
  exists f0, forall fuel s out s' out' x,
    f0 < fuel ->
    encode_into_bytes (encoder c) fuel (enc_fresh c) a = (s, Ok out) ->
    encode_into_bytes (encoder c) fuel (enc_fresh c) a' = (s', Ok out') ->
    out' = out ++ x -> delim c = SD \/ x = [] ->
    a = a' /\ x = [].
Proof.
  intros A c w a w' a' WF AG W W' FI FI'.
  destruct (@C41_encode_into_bytes _ c _ _ WF AG W) as (f1 & H1).
  destruct (@C41_encode_into_bytes _ c _ _ WF AG W') as (f2 & H2).
  exists (f1 + length w + (f2 + length w')). intros fuel s out s' out' x F X Y -> D.
  destruct (H1 fuel ltac:(lia)) as (t & X' & _). rewrite X' in X. injection X as -> ->.
  destruct (H2 fuel ltac:(lia)) as (t' & Y' & _). rewrite Y' in Y. injection Y as -> ->.
  pose proof (proj1 wire_reads A c _ _ W) as R. pose proof (proj1 wire_reads A c _ _ W') as R'.
  destruct D as [M| ->].
  - destruct (@C74_prefix_free _ c _ _ _ _ WF M FI' R R') as (-> & ->). auto.
  - rewrite app_nil_r in *. split; auto. eapply C74_one_item; eauto.
Qed.
Print Assumptions C74_encoder.
Example C74_example :
  wf ex_msg /\ delim ex_msg = SD /\ fits ex_msg_bytes /\ reads ex_msg ex_msg_bytes ex_msg_item /\
  enc_again ex_msg = true /\ wire ex_msg ex_msg_bytes ex_msg_item /\
  nonempty ex_tlv = true /\ sequence_of (reads ex_tlv) ex_file_bytes ex_file_items.
Proof.
  split; [apply ex_msg_wf|]. split; [reflexivity|]. split; [discriminate|].
  split; [apply ex_msg_reads|]. split; [reflexivity|]. split; [apply ex_msg_wire|].
  split; [reflexivity|]. apply ex_file_reads.
Qed.

(** ** C75: the verdict on a stream does not depend on how it is cut *)

(** What [feed] has consumed is what is missing from the stream, and it justifies the item. *)
Lemma feed_history : forall S I (D : Decoder S I) fmt again bz fuel sched s input acc s' rest,
  sound_from D fmt again bz s acc ->
  feed D fuel s input sched = (s', rest, Ok tt) ->
  exists w, input = w ++ rest /\ sound_from D fmt again bz s' (acc ++ w).
Proof.
  intros S I D fmt again bz fuel sched.
  pose proof (sound_closed D fmt again bz) as CL.
  induction sched as [|[k h] sched IH]; intros s input acc s' rest H X; cbn [feed] in X.
  - injection X as <- <-. exists []. rewrite app_nil_r. auto.
  - destruct (dec_idle D s) eqn:id.
    + injection X as <- <-. exists []. rewrite app_nil_r. auto.
    + destruct (dec_decode D fuel s (firstn k input) (hint_eos h (skipn k input))) as [s1 [n|e| |]] eqn:Y;
        try discriminate.
      destruct (sd_decode CL H id Y) as (LE & H1).
      destruct (IH _ _ _ _ _ H1 X) as (w & E & H2).
      exists (firstn n (firstn k input) ++ w). rewrite app_assoc. split; auto.
      rewrite <- app_assoc, <- E. rewrite firstn_firstn, Nat.min_l.
      * symmetry. apply firstn_skipn.
      * rewrite firstn_length in LE. lia.
Qed.

Lemma feed_reads : forall A (c : codec A) fuel sched input s rest a,
  usable c -> faithful c -> fits input ->
  feed (decoder c) fuel (dec_fresh c) input sched = (s, rest, Ok tt) ->
  snd (dec_finish (decoder c) s) = Ok a ->
  exists w, input = w ++ rest /\ reads c w a.
Proof.
  intros A c fuel sched input s rest a U FA FI X Y.
  destruct (proj1 term_sound A c U) as [SND _].
  destruct (feed_history _ _ _ SND X) as (w & -> & H). exists w. split; auto.
  apply (proj1 justifies_reads); auto; [eapply fits_l; eauto|].
  destruct (dec_finish (decoder c) s) as [s' r] eqn:Z. cbn in Y. subst r.
  exact (proj1 (sd_finish (sound_closed _ _ _ _) H Z)).
Qed.

(** Self-delimiting decoders: if one way of cutting the stream yields an item, then every way
    does: the same item, with the same bytes left over.  No call fails before, and the decoder is
    idle exactly when the bytes of the item have been offered. *)
Theorem C75_same_item : forall A (c : codec A) input sched fuel s rest a,
  wf c -> usable c -> faithful c -> delim c = SD -> fits input ->
  feed (decoder c) fuel (dec_fresh c) input sched = (s, rest, Ok tt) ->
  dec_idle (decoder c) s = true -> snd (dec_finish (decoder c) s) = Ok a ->
  forall sched' fuel', length input < fuel' ->
  exists s' rest',
    feed (decoder c) fuel' (dec_fresh c) input sched' = (s', rest', Ok tt) /\
    (sched' <> [] -> length input <= length rest + offered sched' ->
     dec_idle (decoder c) s' = true) /\
    (dec_idle (decoder c) s' = true ->
     rest' = rest /\ snd (dec_finish (decoder c) s') = Ok a).
Proof.
  intros A c input sched fuel s rest a WF U FA M FI X id Y sched' fuel' F.
  destruct (@feed_reads A c _ _ _ _ _ _ U FA FI X Y) as (w & -> & R).
  destruct (@C01_chunk_invariance A c w a rest sched' fuel' WF M R) as (s' & Z1 & Z2 & Z3); auto.
  { unfold fits, isize_max, u64_max in *; lia. }
  exists s', (skipn (min (length w) (offered sched')) (w ++ rest)). split; auto. split.
  - intros NE L. apply Z2. rewrite app_length in L. split; [lia|auto].
  - intros id'. split; auto. apply Z2 in id'. rewrite Nat.min_l, skipn_app_exact by tauto. reflexivity.
Qed.
Print Assumptions C75_same_item.
(** So if some way of cutting the stream ends in an error, no way yields an item. *)
Theorem C75_rejected : forall A (c : codec A) input sched fuel s rest k,
  wf c -> usable c -> faithful c -> delim c = SD -> fits input -> length input < fuel ->
  feed (decoder c) fuel (dec_fresh c) input sched = (s, rest, Err k) ->
  forall sched' fuel' s' rest' a,
    feed (decoder c) fuel' (dec_fresh c) input sched' = (s', rest', Ok tt) ->
    dec_idle (decoder c) s' = true -> snd (dec_finish (decoder c) s') <> Ok a.
Proof.
  intros A c input sched fuel s rest k WF U FA M FI F X sched' fuel' s' rest' a Y id Z.
  destruct (@C75_same_item A c _ _ _ _ _ _ WF U FA M FI Y id Z sched fuel F) as (t & rest2 & X' & _).
  rewrite X' in X. discriminate.
Qed.
Print Assumptions C75_rejected.
(** The same for decoders with a byte limit and for those that run to the end of the stream; the
    item is the whole stream. *)
Theorem C75_same_item_whole : forall A (c : codec A) input sched fuel s a,
  wf c -> usable c -> faithful c -> fits input ->
  feed (decoder c) fuel (dec_fresh c) input sched = (s, [], Ok tt) ->
  dec_idle (decoder c) s = true -> snd (dec_finish (decoder c) s) = Ok a ->
  forall sched' fuel', ends sched' -> length input < fuel' ->
  exists s' rest',
    feed (decoder c) fuel' (dec_fresh c) input sched' = (s', rest', Ok tt) /\
    (completes (delim c) input sched' -> dec_idle (decoder c) s' = true) /\
    (dec_idle (decoder c) s' = true ->
     rest' = [] /\ snd (dec_finish (decoder c) s') = Ok a).
Proof.
  intros A c input sched fuel s a WF U FA FI X id Y sched' fuel' EN F.
  destruct (@feed_reads A c _ _ _ _ _ _ U FA FI X Y) as (w & -> & R). rewrite app_nil_r in *.
  destruct (delim c) eqn:M.
  - destruct (@C75_same_item A c _ _ _ _ _ _ WF U FA M FI X id Y sched' fuel' F) as (s' & rest' & Z1 & Z2 & Z3).
    exists s', rest'. split; auto. split; auto. intros (NE & O). apply Z2; auto.
  - assert (ND : delim c <> ToEos) by congruence.
    destruct (@C01_chunk_invariance_bounded A c w a sched' fuel' WF ND R EN F)
      as (s' & Z1 & Z2 & Z3 & Z4).
    exists s', (skipn (offered sched') w). split; auto. split.
    + intros (NE & O & _). auto.
    + intros id'. split; auto. apply skipn_all2. auto.
  - destruct (@C02_chunk_invariance_eos A c w a sched' fuel' WF M R EN F) as (s' & Z1 & Z2 & Z3).
    exists s', (skipn (offered sched') w). split; auto. split.
    + intros (AN & _). congruence.
    + intros id'. split; auto. rewrite Z2 in id'. apply skipn_all2.
      clear - id'. revert w id'. induction sched' as [|[k h] sched IH]; cbn; intros w AN; [discriminate|].
      apply orb_prop in AN. destruct AN as [AN|AN]; [destruct h; try discriminate; lia|].
      fold (offered sched). rewrite <- (skipn_length k w) in AN. specialize (IH _ AN). rewrite skipn_length in IH. lia.
Qed.
Print Assumptions C75_same_item_whole.
(** And if a schedule that does not claim that the stream is endless ends in an error, no schedule yields an item
    made of the whole stream. *)
Theorem C75_rejected_whole : forall A (c : codec A) input sched fuel s rest k,
  wf c -> usable c -> faithful c -> fits input -> ends sched -> length input < fuel ->
  feed (decoder c) fuel (dec_fresh c) input sched = (s, rest, Err k) ->
  forall sched' fuel' s' a,
    feed (decoder c) fuel' (dec_fresh c) input sched' = (s', [], Ok tt) ->
    dec_idle (decoder c) s' = true -> snd (dec_finish (decoder c) s') <> Ok a.
Proof.
  intros A c input sched fuel s rest k WF U FA FI EN F X sched' fuel' s' a Y id Z.
  destruct (@C75_same_item_whole A c _ _ _ _ _ WF U FA FI Y id Z sched fuel EN F) as (t & rest2 & X' & _).
  rewrite X' in X. discriminate.
Qed.
Print Assumptions C75_rejected_whole.

(** [collect()] is not such a decoder: a stream with an incomplete last item is accepted or rejected
    depending on the cut. *)
Theorem C75_collect_refuted :
  let c := CSeq (CU NU16be) in
  let D := decoder c in let s0 := dec_fresh c in
  let input := [x01; x02; x03] in
  (exists s, feed D 10 s0 input [(3, HUnknown); (0, HExact)] = (s, [], Ok tt) /\
             dec_idle D s = true /\ snd (dec_finish D s) = Ok [258%N]) /\
  (exists s rest, feed D 10 s0 input [(3, HExact)] = (s, rest, Err UnexpectedEos)).
Proof.
  cbv zeta. split.
  - eexists. split; [vm_compute; reflexivity|]. split; vm_compute; reflexivity.
  - eexists. eexists. vm_compute. reflexivity.
Qed.
Print Assumptions C75_collect_refuted.

(** [decode_exact] gives the same verdict: the bytes it has taken from the reader are the ones
    that [decode_from_bytes] accepts, with the same item. *)
Lemma decode_exact_reads : forall S I (D : Decoder S I) fmt again bz ifuel fuel s r acc s' r' i,
  sound_from D fmt again bz s acc -> dec_idle D s = false ->
  decode_exact D fuel ifuel s r = (s', r', Ok i) ->
  exists w, rd_data r = w ++ rd_data r' /\ fmt (acc ++ w) i.
Proof.
  intros S I D fmt again bz ifuel fuel.
  pose proof (sound_closed D fmt again bz) as CL.
  induction fuel as [|fuel IH]; intros s r acc s' r' i H id X; cbn [decode_exact] in X; [discriminate|].
  destruct (dec_req D s) as [q|k| |]; try discriminate. cbv zeta in X.
  assert (RD : exists r1 rd, (if exact_ask q =? 0 then (r, inl []) else rd_read r (exact_ask q)) = (r1, rd) /\
     match rd with inl b => rd_data r = b ++ rd_data r1 | inr _ => True end).
  { destruct (exact_ask q =? 0); [eexists; eexists; split; [reflexivity|reflexivity]|].
    unfold rd_read. destruct (rd_plan r) as [|[n| |e] p]; eexists; eexists; (split; [reflexivity|]); cbn; auto;
      symmetry; apply firstn_skipn. }
  destruct RD as (r1 & rd & E & RD). rewrite E in X. destruct rd as [b|e]; [|discriminate].
  destruct (dec_decode D ifuel s b _) as [s1 [n|k| |]] eqn:Y; try discriminate.
  destruct (Nat.eqb_spec n (length b)) as [->|]; [|discriminate].
  destruct (sd_decode CL H id Y) as (_ & H1). rewrite firstn_all in H1.
  destruct (dec_idle D s1) eqn:id1.
  - destruct (dec_finish D s1) as [s2 x] eqn:Z. injection X as -> -> ->.
    exists b. split; auto. exact (proj1 (sd_finish CL H1 Z)).
  - destruct (IH _ _ _ _ _ _ H1 id1 X) as (w & E2 & F). exists (b ++ w).
    rewrite app_assoc. split; auto. rewrite RD, E2, app_assoc. reflexivity.
Qed.
Theorem C75_decode_exact : forall A (c : codec A) r fuel ifuel s r' a,
  wf c -> usable c -> faithful c -> busy c = true -> fits (rd_data r) ->
  decode_exact (decoder c) fuel ifuel (dec_fresh c) r = (s, r', Ok a) ->
  exists w, rd_data r = w ++ rd_data r' /\
    forall fuel', length w < fuel' ->
    snd (decode_from_bytes (decoder c) fuel' (dec_fresh c) w) = Ok a.
Proof.
  intros A c r fuel ifuel s r' a WF U FA B FI X.
  destruct (proj1 term_sound A c U) as [SND ID].
  destruct (decode_exact_reads _ _ _ SND (ID B) X) as (w & E & J). exists w. split; auto.
  intros fuel' F. assert (FW : fits w) by (rewrite E in FI; eapply fits_l; eauto).
  apply C39_decode_from_bytes; auto. apply (proj1 justifies_reads); auto.
Qed.
Print Assumptions C75_decode_exact.
Example C75_example : exists s rest,
  wf ex_msg /\ usable ex_msg /\ faithful ex_msg /\ delim ex_msg = SD /\ busy ex_msg = true /\
  feed (decoder ex_msg) 100 (dec_fresh ex_msg) (ex_msg_bytes ++ [x99]) [(3, HUnknown); (20, HExact)]
    = (s, rest, Ok tt) /\
  dec_idle (decoder ex_msg) s = true /\ snd (dec_finish (decoder ex_msg) s) = Ok ex_msg_item.
Proof.
  eexists. eexists. split; [apply ex_msg_wf|]. split; [apply ex_msg_usable|].
  split; [apply ex_msg_faithful|]. split; [reflexivity|]. split; [reflexivity|].
  split; [vm_compute; reflexivity|]. split; vm_compute; reflexivity.
Qed.
