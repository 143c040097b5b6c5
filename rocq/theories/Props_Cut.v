(** * Theorems about output streams without enough room: C51, C15. *)
From Coq Require Import Lia ZifyBool ZifyNat ZifyN.
From Verif Require Import EncCut Drive Observe ObserveProofs Examples.
Set Implicit Arguments.

Lemma drain_ecuts : forall S I (E : Encoder S I) f0 (P : S -> Prop) fuel bufs s w out,
  ecuts E f0 P s w -> f0 + room bufs < fuel -> room bufs < length w ->
  exists s', drain E fuel s out bufs = (s', out ++ firstn (room bufs) w, Ok tt) /\
    enc_idle E s' = false /\ ecuts E f0 P s' (skipn (room bufs) w).
Proof.
  intros S I E f0 P fuel. induction bufs as [|b bufs IH]; intros s w out H F L.
  - exists s. cbn in *. rewrite app_nil_r. split; auto. split; auto.
    destruct (enc_idle E s) eqn:id; auto. destruct (emits_idle (ecuts_emits H) id) as (-> & _).
    cbn in L; lia.
  - cbn [room fold_right] in *. fold (room bufs) in *. cbn [drain].
    destruct (enc_idle E s) eqn:id.
    { destruct (emits_idle (ecuts_emits H) id) as (-> & _). cbn in L; lia. }
    rewrite (split_at (length b) w) in H.
    assert (NE : skipn (length b) w <> []).
    { intros X. apply (f_equal (@length byte)) in X. rewrite skipn_length in X. cbn in X. lia. }
    destruct (ecuts_more (e := eos_new false) (buf := b) (fuel := fuel) H id) as (s1 & X & id1 & H1);
      [rewrite firstn_length; lia|auto|auto|lia|].
    rewrite X. rewrite firstn_firstn, Nat.min_id.
    destruct (IH s1 (skipn (length b) w) (out ++ firstn (length b) w) H1) as (s2 & Y & id2 & H2);
      try lia; try (rewrite skipn_length; lia).
    exists s2. split; [|split; auto].
    + rewrite Y, <- app_assoc. do 3 f_equal.
      rewrite <- (firstn_skipn (length b) w) at 3.
      replace (length b) with (length (firstn (length b) w)) at 3 by (rewrite firstn_length; lia).
      now rewrite firstn_app_2.
    + rewrite skipn_skipn, Nat.add_comm in H2. auto.
Qed.

(** ** C51: the encoder reports the truncated stream *)

(** After any number of calls with buffers of any sizes, a call that announces that no room follows
    ([e.is_reached()]) with a buffer too small for the rest of the item fails with
    [UnexpectedEos]. *)
Theorem C51_truncated_output : forall A (c : codec A) w a,
  wf c -> ereports c -> wire c w a ->
  exists f0, forall fuel bufs buf e,
  f0 + room bufs + length buf < fuel -> room bufs + length buf < length w -> is_reached e = true ->
  exists s1 s2 s3 buf',
    enc_start (encoder c) fuel (enc_fresh c) a = (s1, Ok tt) /\
    drain (encoder c) fuel s1 [] bufs = (s2, firstn (room bufs) w, Ok tt) /\
    enc_idle (encoder c) s2 = false /\
    enc_encode (encoder c) fuel s2 buf e = (s3, buf', Err UnexpectedEos) /\
    (* and the item does not count as encoded *)
    enc_idle (encoder c) s3 = false.
Proof.
  intros A c w a WF RP F.
  destruct (proj1 term_cut_ok A c WF RP) as (P & Q & H & H0 & _).
  destruct (H w a F) as (f0 & AC). exists f0. intros fuel bufs buf e FU L RE.
  destruct (AC _ H0 fuel ltac:(lia)) as (s1 & X & EC).
  destruct (@drain_ecuts _ _ _ _ _ fuel bufs _ _ [] EC ltac:(lia) ltac:(lia)) as (s2 & Y & id & EC2).
  destruct (@ecuts_cut _ _ _ _ _ _ _ fuel buf e EC2 id) as (s3 & b' & Z & Z2); auto; try lia.
  { rewrite skipn_length. lia. }
  exists s1, s2, s3, b'. auto 6.
Qed.
Print Assumptions C51_truncated_output.

(** When the rest of the item fits, the same call completes it, end of stream or not. *)
Theorem C51_fits : forall A (c : codec A) w a,
  wf c -> wire c w a ->
  exists f0, forall fuel bufs buf e,
  f0 + room bufs + length buf < fuel -> room bufs < length w -> length w <= room bufs + length buf ->
  exists s1 s2 s3,
    enc_start (encoder c) fuel (enc_fresh c) a = (s1, Ok tt) /\
    drain (encoder c) fuel s1 [] bufs = (s2, firstn (room bufs) w, Ok tt) /\
    enc_encode (encoder c) fuel s2 buf e
      = (s3, skipn (room bufs) w ++ skipn (length w - room bufs) buf, Ok (length w - room bufs)) /\
    enc_idle (encoder c) s3 = true.
Proof.
  intros A c w a WF F.
  destruct (proj1 term_enc_ok A c WF) as (P & Q & H & H0 & _).
  destruct (H w a F) as (f0 & AC). exists f0. intros fuel bufs buf e FU L1 L2.
  destruct (AC _ H0 fuel ltac:(lia)) as (s1 & X & EC).
  destruct (drain_ok (fuel := fuel) bufs [] EC ltac:(lia)) as (s2 & Y & EM & Z).
  assert (id : enc_idle (encoder c) s2 = false).
  { destruct (enc_idle (encoder c) s2); auto. destruct (proj1 Z eq_refl). lia. }
  destruct (emits_last e EM id (buf := buf) (fuel := fuel)) as (s3 & V & id3 & _); try lia.
  { rewrite skipn_length. lia. }
  rewrite skipn_length in V. exists s1, s2, s3. auto.
Qed.
Print Assumptions C51_fits.

(** The results of starting, draining and one final call. *)
Definition run_cut {S I} (E : Encoder S I) (s : S) (i : I) bufs buf e :=
  let '(s1, r1) := enc_start E 100 s i in
  let '(s2, out, r2) := drain E 100 s1 [] bufs in
  (r1, out, r2, snd (enc_encode E 100 s2 buf e)).
Example C51_example : wf ex_msg /\ ereports ex_msg /\ wire ex_msg ex_msg_bytes ex_msg_item /\
  run_cut (encoder ex_msg) (enc_fresh ex_msg) ex_msg_item [repeat x00 2; repeat x00 5] (repeat x00 6)
    (eos_new true)
  = (Ok tt, firstn 7 ex_msg_bytes, Ok tt, Err UnexpectedEos) /\
  run_cut (encoder ex_msg) (enc_fresh ex_msg) ex_msg_item [repeat x00 2; repeat x00 5] (repeat x00 7)
    (eos_new true)
  = (Ok tt, firstn 7 ex_msg_bytes, Ok tt, Ok 7).
Proof.
  split; [apply ex_msg_wf|]. split; [cbn; auto|]. split; [apply ex_msg_wire|].
  split; vm_compute; reflexivity.
Qed.

(** [MonolithicEncoder] looks at the end of the room only after its first call: that call succeeds
    although the item does not fit; the next one fails. *)
Theorem C51_monolithic_refuted :
  let E := mono_encoder (fun i : list byte => ([i], None)) in
  exists s1 s2 s3 b,
    enc_start E 10 mono_enc_new [x01; x02; x03] = (s1, Ok tt) /\
    enc_encode E 10 s1 [x00] (eos_new true) = (s2, [x01], Ok 1) /\
    enc_idle E s2 = false /\
    enc_encode E 10 s2 [x00] (eos_new true) = (s3, b, Err UnexpectedEos).
Proof. do 4 eexists. repeat split. Qed.
Print Assumptions C51_monolithic_refuted.

(** ** C15: an item that is too long for [length(n)] *)
Lemma length_drain_long : forall S I (E : Encoder S I) f0 (P : S -> Prop) n fuel bufs s w rem out,
  ecuts E f0 P s w -> f0 + room bufs < fuel -> (0 < rem < len w)%N ->
  if (N.of_nat (room bufs) <? rem)%N
  then exists s', drain (length_encoder E) fuel (mkLength s n rem) out bufs
       = (mkLength s' n (rem - N.of_nat (room bufs)), out ++ firstn (room bufs) w, Ok tt)
  else exists st k, (N.of_nat k < rem)%N /\ drain (length_encoder E) fuel (mkLength s n rem) out bufs
       = (st, out ++ firstn k w, Err UnexpectedEos).
Proof.
  intros S I E f0 P n fuel. induction bufs as [|b bufs IH]; intros s w rem out H F L.
  - cbn [room fold_right]. replace (N.of_nat 0 <? rem)%N with true by lia. exists s. cbn.
    rewrite app_nil_r. do 3 f_equal. lia.
  - cbn [room fold_right] in *. fold (room bufs) in *. cbn [drain enc_idle length_encoder ln_remaining].
    replace (rem =? 0)%N with false by lia. cbn [enc_encode length_encoder]. unfold length_encode.
    cbn [ln_inner ln_expected ln_remaining]. change (is_reached (eos_new false)) with false.
    rewrite andb_false_r. cbn iota.
    assert (id : enc_idle E s = false).
    { destruct (enc_idle E s) eqn:id; auto. destruct (emits_idle (ecuts_emits H) id) as (-> & _).
      cbn in L. lia. }
    destruct (len b <? rem)%N eqn:Y.
    + rewrite firstn_all.
      assert (NE : skipn (length b) w <> []).
      { intros X. apply (f_equal (@length byte)) in X. rewrite skipn_length in X. unfold len in *. cbn in X. lia. }
      rewrite (split_at (length b) w) in H.
      destruct (ecuts_more (e := eos_new false) (buf := b) (fuel := fuel) H id) as (s1 & X & id1 & H1);
        [rewrite firstn_length; unfold len in *; lia|auto|auto|lia|].
      rewrite X. unfold len in Y. rewrite u64_sub_ok by lia. rewrite id1. cbn [andb].
      rewrite skipn_all, app_nil_r, firstn_firstn, Nat.min_id.
      specialize (IH s1 (skipn (length b) w) (rem - N.of_nat (length b))%N (out ++ firstn (length b) w) H1
        ltac:(lia) ltac:(unfold len in *; rewrite skipn_length; lia)).
      assert (J : forall j, firstn (length b + j) w = firstn (length b) w ++ firstn j (skipn (length b) w)).
      { intros j. rewrite <- (firstn_skipn (length b) w) at 1.
        replace (length b) with (length (firstn (length b) w)) at 1
          by (rewrite firstn_length; unfold len in *; lia).
        now rewrite firstn_app_2. }
      replace (N.of_nat (length b + room bufs) <? rem)%N
        with (N.of_nat (room bufs) <? rem - N.of_nat (length b))%N by lia.
      destruct (N.of_nat (room bufs) <? rem - N.of_nat (length b))%N eqn:G.
      * destruct IH as (s' & Z). exists s'. rewrite Z, J, app_assoc. do 3 f_equal. lia.
      * destruct IH as (st & k & Z1 & Z2). exists st, (length b + k). split; [lia|].
        rewrite Z2, J, app_assoc. auto.
    + replace (N.of_nat (length b + room bufs) <? rem)%N with false by (unfold len in *; lia).
      destruct (@ecuts_cut _ _ _ _ _ _ _ fuel (firstn (N.to_nat rem) b) (eos_new true) H id)
        as (s' & b' & X & _); auto; try (rewrite firstn_length; unfold len in *; lia).
      rewrite X. eexists _, 0. split; [lia|]. cbn. now rewrite app_nil_r.
Qed.

(** In the call in which the total room first reaches [n] the encoder fails with [UnexpectedEos];
    before that it has written a prefix of the item of fewer than [n] bytes. *)
Theorem C15_length_long : forall A (c : codec A) w a n,
  wf c -> ereports c -> wire c w a -> (0 < n < len w)%N ->
  exists f0, forall fuel bufs, f0 + room bufs < fuel ->
  exists s1,
    enc_start (length_encoder (encoder c)) fuel (length_new (enc_fresh c) n) a = (s1, Ok tt) /\
    if (N.of_nat (room bufs) <? n)%N
    then exists s2, drain (length_encoder (encoder c)) fuel s1 [] bufs
                    = (s2, firstn (room bufs) w, Ok tt) /\
                    enc_idle (length_encoder (encoder c)) s2 = false
    else exists s2 k, (N.of_nat k < n)%N /\
         drain (length_encoder (encoder c)) fuel s1 [] bufs = (s2, firstn k w, Err UnexpectedEos).
Proof.
  intros A c w a n WF RP F L.
  destruct (proj1 term_cut_ok A c WF RP) as (P & Q & H & H0 & _).
  destruct (H w a F) as (f0 & AC). exists f0. intros fuel bufs FU.
  destruct (AC _ H0 fuel ltac:(lia)) as (s1 & X & EC).
  exists (mkLength s1 n n). split; [cbn; rewrite N.eqb_refl, X; auto|].
  pose proof (@length_drain_long _ _ _ _ _ n fuel bufs s1 w n [] EC FU L) as Y.
  destruct (N.of_nat (room bufs) <? n)%N eqn:G.
  - destruct Y as (s' & Y). eexists. split; [exact Y|]. cbn. lia.
  - destruct Y as (st & k & Y1 & Y2). exists st, k. auto.
Qed.
Print Assumptions C15_length_long.
Example C15_long_example : wf ex_msg /\ ereports ex_msg /\ (0 < 5 < len ex_msg_bytes)%N /\
  (let '(s1, _) := enc_start (length_encoder (encoder ex_msg)) 100 (length_new (enc_fresh ex_msg) 5)
                     ex_msg_item in
   let '(_, out, r) := drain (length_encoder (encoder ex_msg)) 100 s1 [] [repeat x00 4; repeat x00 4] in
   (out, r)) = (firstn 4 ex_msg_bytes, Err UnexpectedEos).
Proof.
  split; [apply ex_msg_wf|]. split; [cbn; auto|]. split; [vm_compute; auto|].
  vm_compute; reflexivity.
Qed.

(** Over a [MonolithicEncoder] an item that is too long is cut silently: after [n] bytes the encoder
    is idle and no call has failed. *)
Theorem C15_long_monolithic_refuted :
  let E := length_encoder (mono_encoder (fun i : list byte => ([i], None))) in
  exists s1 s2,
    enc_start E 10 (length_new mono_enc_new 2) [x01; x02; x03] = (s1, Ok tt) /\
    drain E 10 s1 [] [repeat x00 8] = (s2, [x01; x02], Ok tt) /\
    enc_idle E s2 = true.
Proof. do 2 eexists. split; [reflexivity|]. split; reflexivity. Qed.
Print Assumptions C15_long_monolithic_refuted.
