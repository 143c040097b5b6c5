(** * C82, continued: [repeat()] over an iterator with items left, when the end of the room is announced *)
From Verif Require Export Props_Iter EncCut.
From Coq Require Import Lia ZifyBool ZifyNat ZifyN.
From Verif Require Props_Num Props_Writes.
Set Implicit Arguments.

Section ItCut.
  Context {S I T : Type} (E : Encoder S I) (next : T -> option I * T) (f0 : nat) (P : S -> Prop) (RS : rests E P).
  Implicit Types (it : T).

  (** [w] is what the encoder has still to output for the items [xs] yet to be pulled and the one in progress. *)
  Definition holds (s : S) (it : T) (w : list byte) : Prop :=
    exists w1 ws xs it', w = w1 ++ concat ws /\ ecuts E f0 P s w1 /\ (w1 = [] -> P s) /\
      cut_items E f0 P ws xs /\ yields next it xs it'.

  Lemma itc_pull : forall s it w fuel,
    holds s it w -> w <> [] -> f0 < fuel ->
    exists s' w1 ws xs it1 it', w = w1 ++ concat ws /\ w1 <> [] /\
       iter_pull E next fuel fuel s (Some it) = IPullGo s' (Some it1) /\
       ecuts E f0 P s' w1 /\ enc_idle E s' = false /\ cut_items E f0 P ws xs /\ yields next it1 xs it'.
  Proof.
    intros s it w fuel (w1 & ws & xs & it' & -> & H & HP & HI & Y) NW F. destruct fuel as [|fuel]; [lia|].
    assert (NI : forall s w, ecuts E f0 P s w -> w <> [] -> enc_idle E s = false).
    { intros s0 w0 H0 N0. destruct (enc_idle E s0) eqn:X; auto. destruct (emits_idle (ecuts_emits H0) X) as [? _]. contradiction. }
    destruct (nil_or_not w1) as [->|NE].
    - specialize (HP eq_refl). destruct (RS HP) as (id & _).
      inversion HI as [|w i ws' is' [NW' AC] HI']; subst; [now cbn in NW|].
      inversion Y as [|? ? it1 ? ? NX Y1]; subst. destruct (AC s HP (Datatypes.S fuel) ltac:(lia)) as (s' & ST & H').
      pose proof (NI _ _ H' NW') as id'.
      exists s', w, ws', is', it1, it'. repeat (split; auto).
      cbn [iter_pull]. rewrite id, NX, ST. destruct fuel; cbn [iter_pull]; now rewrite id'.
    - pose proof (NI _ _ H NE) as id'. exists s, w1, ws, xs, it, it'. repeat (split; auto).
      cbn [iter_pull]. now rewrite id'.
  Qed.

  Lemma itc_more : forall n fuel it s pre w b w' e,
    holds s it (w ++ w') -> length w = length b -> w' <> [] ->
    is_reached e = false -> length b < n -> f0 + length b < fuel ->
    exists s' it1,
      iter_loop E next n fuel (mkRepeatIter s (Some it)) (length pre) (pre ++ b) e
      = (mkRepeatIter s' (Some it1), pre ++ w, Ok (length (pre ++ b))) /\ holds s' it1 w'.
  Proof.
    induction n as [|n IH]; intros fuel it s pre w b w' e H LW NE NR N F; [lia|].
    cbn [iter_loop ri_items ri_inner].
    destruct (itc_pull (fuel := fuel) H) as (s1 & u1 & us & xs & it1 & it' & EQ & NU & -> & H1 & id1 & HI1 & Y1); [|lia|].
    { intros X. apply app_eq_nil in X. tauto. }
    rewrite slice_from_app. symmetry in EQ.
    destruct (app_cases _ _ _ _ EQ) as [(u1' & -> & EW & NU')|(b1 & EW & EC)].
    - destruct (ecuts_more H1 id1 LW NU' NR F) as (s2 & -> & id2 & H2).
      assert (HO : holds s2 it1 w').
      { exists u1', us, xs, it'. repeat (split; auto). intros X; contradiction. }
      rewrite firstn_app_exact.
      destruct (length b =? 0) eqn:B0.
      + exists s2, it1. rewrite app_length. auto.
      + destruct (IH fuel it1 s2 (pre ++ w) [] [] w' e HO) as (s3 & it3 & X & Z); auto; try (cbn; lia).
        rewrite !app_nil_r in X. rewrite app_length in *. rewrite LW in X. rewrite X. eauto.
    - subst w. rewrite app_length in LW.
      destruct (emits_last e (ecuts_emits H1) id1 (buf := b) (fuel := fuel) ltac:(lia) ltac:(lia)) as (s2 & -> & id2 & H2).
      rewrite firstn_app_exact. pose proof (length_nonnil NU).
      replace (length u1 =? 0) with false by lia.
      destruct (IH fuel it1 s2 (pre ++ u1) b1 (skipn (length u1) b) w' e) as (s3 & it3 & X & Z);
        auto; try (rewrite skipn_length; lia).
      { exists [], us, xs, it'. cbn. repeat (split; auto). { now apply idle_ecuts. } intros _. apply (emits_idle H2 id2). }
      rewrite app_length in X. rewrite !app_assoc. rewrite X.
      exists s3, it3. rewrite <- !app_assoc. split; auto.
      do 2 f_equal. rewrite !app_length, skipn_length. lia.
  Qed.

  Lemma itc_cut : forall n fuel it s w pre b e,
    holds s it w -> length b < length w -> is_reached e = true -> length b < n -> f0 + length b < fuel ->
    exists s' b', iter_loop E next n fuel (mkRepeatIter s (Some it)) (length pre) (pre ++ b) e
      = (s', b', Err UnexpectedEos) /\ enc_idle (repeat_iter_encoder E next) s' = false.
  Proof.
    induction n as [|n IH]; intros fuel it s w pre b e H LW RE N F; [lia|].
    cbn [iter_loop ri_items ri_inner].
    destruct (itc_pull (fuel := fuel) H) as (s1 & u1 & us & xs & it1 & it' & -> & NU & -> & H1 & id1 & HI1 & Y1); [|lia|].
    { intros ->. cbn in LW. lia. }
    rewrite slice_from_app. rewrite app_length in LW.
    destruct (le_lt_dec (length u1) (length b)) as [LE|LT].
    - destruct (emits_last e (ecuts_emits H1) id1 (buf := b) (fuel := fuel) LE ltac:(lia)) as (s2 & -> & id2 & H2).
      rewrite firstn_app_exact. pose proof (length_nonnil NU).
      replace (length u1 =? 0) with false by lia.
      destruct (IH fuel it1 s2 (concat us) (pre ++ u1) (skipn (length u1) b) e)
        as (s3 & b3 & X & Z); auto; try (rewrite skipn_length; lia).
      { exists [], us, xs, it'. cbn. repeat (split; auto). { now apply idle_ecuts. } intros _. apply (emits_idle H2 id2). }
      rewrite app_length in X. rewrite !app_assoc. rewrite X. eauto.
    - destruct (ecuts_cut H1 id1 LT RE F) as (s2 & b2 & -> & Z). eauto.
  Qed.

  Lemma itc_drain : forall bufs fuel it s w w' out,
    holds s it (w ++ w') -> length w = room bufs -> w' <> [] -> f0 + room bufs < fuel ->
    exists s' it1,
      drain (repeat_iter_encoder E next) fuel (mkRepeatIter s (Some it)) out bufs
      = (mkRepeatIter s' (Some it1), out ++ w, Ok tt) /\ holds s' it1 w'.
  Proof.
    induction bufs as [|b bufs IH]; intros fuel it s w w' out H LW NE F.
    - destruct w; [|discriminate]. cbn. rewrite app_nil_r. eauto.
    - change (room (b :: bufs)) with (length b + room bufs) in *.
      rewrite <- (firstn_skipn (length b) w) in H. rewrite <- app_assoc in H.
      destruct (@itc_more fuel fuel it s [] _ b _ (eos_new false) H) as (s1 & it1 & X & H1); auto; try lia.
      { rewrite firstn_length. lia. } { intros Q. apply app_eq_nil in Q. tauto. }
      cbn [app length] in X. cbn [drain enc_idle enc_encode repeat_iter_encoder repeat_iter_idle ri_items]. rewrite X.
      rewrite (@firstn_all2 _ _ (firstn (length b) w)) by (rewrite firstn_length; lia).
      destruct (IH fuel it1 s1 _ w' (out ++ firstn (length b) w) H1) as (s2 & it2 & X2 & H2); auto.
      { rewrite skipn_length. lia. } { lia. }
      rewrite <- app_assoc, firstn_skipn in X2. eauto.
  Qed.

  Lemma itc_length_drain : forall bufs fuel it s w c n out,
    holds s it w -> (n < len w)%N -> (n <= N.of_nat (room bufs))%N -> bufs <> [] -> (n <> 0)%N -> (n <= u64_max)%N -> f0 + room bufs < fuel ->
    exists st out',
      drain (length_encoder (repeat_iter_encoder E next)) fuel (mkLength (mkRepeatIter s (Some it)) c n) out bufs
      = (st, out', Err UnexpectedEos).
  Proof.
    induction bufs as [|b bufs IH]; intros fuel it s w c n out H LW R NB N0 NU F; [congruence|].
    change (room (b :: bufs)) with (length b + room bufs) in *.
    cbn [drain enc_idle enc_encode length_encoder length_encode ln_remaining ln_inner ln_expected].
    replace (n =? 0)%N with false by lia. unfold length_encode. cbn [ln_remaining ln_inner ln_expected].
    change (is_reached (eos_new false)) with false. rewrite andb_false_r.
    destruct (len b <? n)%N eqn:SH.
    - assert (len b < n)%N by lia. unfold len in *.
      rewrite firstn_all, skipn_all.
      rewrite <- (firstn_skipn (length b) w) in H.
      destruct (@itc_more fuel fuel it s [] _ b _ (eos_new false) H) as (s1 & it1 & X & H1); auto; try lia.
      { rewrite firstn_length. lia. } { intros Q. apply (f_equal (@length byte)) in Q. rewrite skipn_length in Q. cbn in Q. lia. }
      cbn [app length] in X. cbn [enc_encode repeat_iter_encoder]. rewrite X.
      unfold u64_sub. replace (_ <=? _)%N with true by lia. cbn [enc_idle repeat_iter_idle ri_items andb].
      eapply IH; eauto; try lia.
      { unfold len. rewrite skipn_length. lia. } { intros ->. cbn in R. lia. }
    - assert (n <= len b)%N by lia. unfold len in *.
      destruct (@itc_cut fuel fuel it s w [] (firstn (N.to_nat n) b) (eos_new true) H) as (s1 & b1 & X & _);
        auto; try (rewrite firstn_length; lia).
      cbn [app length] in X. cbn [enc_encode repeat_iter_encoder]. rewrite X. eauto.
  Qed.
End ItCut.

Lemma endless_holds : forall S I T (E : Encoder S I) (next : T -> option I * T) (fmt : format I) P s it n,
  rests E P -> encuts E fmt P P -> (forall w i, fmt w i -> w <> []) -> P s ->
  endless next it -> (forall xs it', yields next it xs it' -> Forall (fun i => exists w, fmt w i) xs) ->
  exists f0 w, n < length w /\ holds E next f0 P s it w.
Proof.
  intros S I T E next fmt P s it n RS ENC NEF PS EN FM.
  destruct (EN (Datatypes.S n)) as (xs & it' & LX & Y).
  assert (WS : exists ws, Forall2 fmt ws xs).
  { specialize (FM _ _ Y). clear - FM. induction FM as [|x xs (w & Fw) _ (ws & IH)]; [now exists []|].
    exists (w :: ws). now constructor. }
  destruct WS as (ws & F2).
  assert (LC : length xs <= length (concat ws)).
  { clear - F2 NEF. induction F2; cbn; auto. rewrite app_length. pose proof (length_nonnil (NEF _ _ H)). lia. }
  assert (CI : exists f0, cut_items E f0 P ws xs).
  { apply (@forall2_max I ws xs (fun f0 w i => w <> [] /\ forall s, P s -> eaccepts E f0 P s i w)).
    - intros a b w i LE [? A]. split; auto. intros s0 PP. eapply eaccepts_fuel; eauto.
    - clear - F2 ENC NEF. induction F2; constructor; auto. destruct (ENC _ _ H) as (f0 & A). exists f0. split; auto. eapply NEF; eauto. }
  destruct CI as (f0 & CI). exists f0, (concat ws). split; [lia|].
  exists [], ws, xs, it'. repeat (split; auto). eapply ecuts_fuel; [|apply rests_ecuts; eauto]; lia.
Qed.

(** ** An endless iterator and the end of the room: after any calls, the first call that announces it fails with
    [UnexpectedEos], however large its buffer is; and the encoder is not idle afterwards. *)
Theorem C82_endless_eos : forall S I T (E : Encoder S I) (next : T -> option I * T) (fmt : format I) P s it bufs buf e,
  rests E P -> encuts E fmt P P -> (forall w i, fmt w i -> w <> []) -> P s ->
  endless next it -> (forall xs it', yields next it xs it' -> Forall (fun i => exists w, fmt w i) xs) ->
  is_reached e = true ->
  exists f0, forall fuel, f0 + room bufs + length buf < fuel ->
  exists st st' out st'' buf',
    enc_start (repeat_iter_encoder E next) fuel (repeat_iter_new s) it = (st, Ok tt) /\
    drain (repeat_iter_encoder E next) fuel st [] bufs = (st', out, Ok tt) /\
    enc_encode (repeat_iter_encoder E next) fuel st' buf e = (st'', buf', Err UnexpectedEos) /\
    enc_idle (repeat_iter_encoder E next) st'' = false.
Proof.
  intros S I T E next fmt P s it bufs buf e RS ENC NEF PS EN FM RE.
  destruct (@endless_holds S I T E next fmt P s it (room bufs + length buf) RS ENC NEF PS EN FM) as (f0 & w & LW & H).
  exists f0. intros fuel F. exists (mkRepeatIter s (Some it)).
  rewrite <- (firstn_skipn (room bufs) w) in H.
  destruct (@itc_drain S I T E next f0 P RS bufs fuel it s _ _ [] H) as (s' & it1 & X & H1); try lia.
  { rewrite firstn_length. lia. } { intros Q. apply (f_equal (@length byte)) in Q. rewrite skipn_length in Q. cbn in Q. lia. }
  destruct (@itc_cut S I T E next f0 P RS fuel fuel it1 s' _ [] buf e H1) as (s2 & b2 & X2 & ID); auto; try lia.
  { rewrite skipn_length. lia. }
  do 4 eexists. split; [reflexivity|]. split; [exact X|]. split; [exact X2|exact ID].
Qed.
Print Assumptions C82_endless_eos.

(** ** So [length(n)] does not cut an endless sequence: by the time the buffers have room for the [n] bytes the
    encoder has failed with [UnexpectedEos], however the room is divided. *)
Theorem C82_endless_length : forall S I T (E : Encoder S I) (next : T -> option I * T) (fmt : format I) P s it n bufs,
  rests E P -> encuts E fmt P P -> (forall w i, fmt w i -> w <> []) -> P s ->
  endless next it -> (forall xs it', yields next it xs it' -> Forall (fun i => exists w, fmt w i) xs) ->
  (0 < n <= u64_max)%N -> (n <= N.of_nat (room bufs))%N ->
  exists f0, forall fuel, f0 + room bufs < fuel ->
  exists st st' out,
    enc_start (length_encoder (repeat_iter_encoder E next)) fuel (mkLength (repeat_iter_new s) n n) it = (st, Ok tt) /\
    drain (length_encoder (repeat_iter_encoder E next)) fuel st [] bufs = (st', out, Err UnexpectedEos).
Proof.
  intros S I T E next fmt P s it n bufs RS ENC NEF PS EN FM N0 R.
  destruct (@endless_holds S I T E next fmt P s it (room bufs) RS ENC NEF PS EN FM) as (f0 & w & LW & H).
  exists f0. intros fuel F. exists (mkLength (mkRepeatIter s (Some it)) n n).
  destruct (@itc_length_drain S I T E next f0 P RS bufs fuel it s w n n [] H) as (st' & out & X); try lia.
  { unfold len. lia. } { intros ->. cbn in R. lia. }
  exists st', out. split; [|exact X].
  cbn. now rewrite N.eqb_refl.
Qed.
Print Assumptions C82_endless_length.

(** ** The hypotheses are met: 16-bit numbers counting up for ever. *)
Example C82_count_length_example : forall n bufs, (0 < n <= u64_max)%N -> (n <= N.of_nat (room bufs))%N ->
  exists f0, forall fuel, f0 + room bufs < fuel ->
  exists st st' out,
    enc_start (length_encoder (repeat_iter_encoder U16beEncoder count_next)) fuel (mkLength (repeat_iter_new num_enc_new) n n) 0%N = (st, Ok tt) /\
    drain (length_encoder (repeat_iter_encoder U16beEncoder count_next)) fuel st [] bufs = (st', out, Err UnexpectedEos).
Proof.
  intros n bufs N0 R. apply (C82_endless_length (E := U16beEncoder) (fmt := fun w n => num_bytes NU16be n w) (P := @bytes_eidle (list byte)) num_enc_new bufs); auto.
  - exact (@unum_rests NU16be).
  - apply encodes_encuts; [intros f0 s w; apply num_ecuts|exact (@unum_enc NU16be)].
  - intros w i H ->. exact (Props_Writes.num_cons H).
  - reflexivity.
  - intros k. enough (G : forall n k, exists xs it', length xs = n /\ yields count_next k xs it') by apply G.
    clear. induction n as [|n IH]; intros k; [exists [], k; split; auto; constructor|].
    destruct (IH (k + 1)%N) as (xs & it' & L & Y). exists ((k mod 65536)%N :: xs), it'.
    split; [cbn; congruence|]. econstructor; [reflexivity|exact Y].
  - intros xs it' Y. clear N0 R. induction Y; constructor; auto. unfold count_next in H. injection H as <- _.
    apply (@Props_Num.digits_total NU16be). apply N.mod_lt. discriminate.
Qed.
(** A finite sequence of the right length does fit; the same bytes from an iterator that goes on do not. *)
Example C82_exact_length_example :
  let enc T (next : T -> option N * T) it :=
    let E := length_encoder (repeat_iter_encoder U16beEncoder next) in
    enc_trace E (mkLength (repeat_iter_new num_enc_new) 4 4) [OpStart 99 it; OpEncode 99 (repeat x00 4) Unknown; OpEIdle] in
  enc _ list_next [0; 1]%N = [ObStart (Ok tt); ObEncode [x00; x00; x00; x01] (Ok 4); ObEIdle true] /\
  enc _ count_next 0%N = [ObStart (Ok tt); ObEncode [x00; x00; x00; x01] (Err UnexpectedEos); ObEIdle false].
Proof. vm_compute. auto. Qed.
