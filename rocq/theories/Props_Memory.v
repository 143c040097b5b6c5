(** * C85: memory asked for on behalf of a sender *)
From Coq Require Import Lia ZifyBool ZifyNat ZifyN.
From Verif Require Import Lib Memory Fixnum Props_Comb.
Set Implicit Arguments.

(** The meter does not change what is observed. *)
Theorem C85_meter_is_silent : forall S I claim (D : Decoder S I) s k ops,
  dec_trace (metered claim D) (s, k) ops = dec_trace D s ops.
Proof.
  intros S I claim D s k ops. revert s k. induction ops as [|o ops IH]; intros s k; cbn [dec_trace]; auto.
  destruct o as [fuel buf e| | |]; cbn [dec_do metered dec_decode dec_finish dec_req dec_idle fst snd].
  - destruct (dec_decode D fuel s buf e) as [s' r]. now rewrite IH.
  - destruct (dec_finish D s) as [s' r]; now rewrite IH.
  - now rewrite IH.
  - now rewrite IH.
Qed.
Print Assumptions C85_meter_is_silent.

Definition rem_metered := metered rem_claim rem_decoder.
Definition mono_metered {I} (f : MonoDecode I) := metered mono_claim (mono_decoder f).

Lemma len_app2 : forall (a b : list byte), len (a ++ b) = (len a + len b)%N.
Proof. intros. unfold len. rewrite app_length. lia. Qed.
Lemma len_firstn_min : forall n (b : list byte), (n <= len b)%N -> len (firstn (N.to_nat n) b) = n.
Proof. intros n b H. unfold len in *. rewrite firstn_length. lia. Qed.

(** ** [max_bytes(n)] directly around the decoder that stores: never more than [n] bytes *)
Lemma rem_metered_call : forall fuel st k buf e st2 k2 r,
  dec_decode rem_metered fuel (st, k) buf e = ((st2, k2), r) ->
  k2 = N.max k (rem_claim st buf e) /\
  (rm_eos st = true -> st2 = st /\ r = Ok 0) /\
  (rm_eos st = false ->
    (r = Panic /\ st2 = st) \/
    (st2 = mkRemDec (rm_buf st ++ buf) (is_reached e) /\ r = Ok (length buf))).
Proof.
  intros fuel st k buf e st2 k2 r. cbn [dec_decode rem_metered metered fst snd rem_decoder]. unfold rem_decode.
  destruct (rm_eos st) eqn:Z.
  - intros X; inversion X; subst. repeat split; auto; discriminate.
  - destruct (bc_to_u64 (remaining_bytes e)) as [m|].
    + destruct (_ <=? isize_max)%N; intros X; inversion X; subst; (split; [reflexivity|]); (split; [discriminate|]); auto.
    + intros X; inversion X; subst. split; [reflexivity|]. split; [discriminate|]. auto.
Qed.
Lemma max_check_ok : forall S (st : MaxBytes S) buf e, max_check st buf e = Ok tt ->
  (mx_consumed st <= mx_max st)%N /\
  (len buf + match remaining_bytes e with Finite m => m | _ => 0 end <= mx_max st - mx_consumed st)%N.
Proof.
  intros S st buf e. unfold max_check, u64_sub, u64_add.
  destruct (remaining_bytes e) as [m| |]; try discriminate;
    destruct (mx_consumed st <=? mx_max st)%N eqn:A; try discriminate.
  - destruct (len buf + m <=? u64_max)%N; try discriminate.
    destruct (len buf + m <=? mx_max st - mx_consumed st)%N eqn:B; try discriminate. lia.
  - destruct (len buf <=? mx_max st - mx_consumed st)%N eqn:B; try discriminate. lia.
Qed.

(** Whatever the calls of [decode] and what they return, between items that are taken only when complete: *)
Theorem C85_max_bytes_remaining : forall n st, (n <= u64_max)%N ->
  life (max_decoder rem_metered) true false (max_new (rem_dec_new, 0%N) n) st ->
  (snd (mx_inner st) <= n)%N /\ (len (rm_buf (fst (mx_inner st))) <= n)%N.
Proof.
  intros n st LN H.
  assert (K : mx_max st = n /\ (snd (mx_inner st) <= n)%N /\ (mx_consumed st <= n)%N /\
              (len (rm_buf (fst (mx_inner st))) <= mx_consumed st)%N).
  { induction H as [|s1 fuel buf e s2 r H IH _ X|s1 s2 r H IH OK X].
    - cbn. lia.
    - destruct s1 as [[s k] c m]. cbn [mx_max mx_inner mx_consumed fst snd] in *. destruct IH as (-> & A & B & C).
      cbn [dec_decode max_decoder] in X. unfold max_decode in X.
      destruct (max_check _ buf e) as [[]| | |] eqn:M;
        try (inversion X; subst; cbn; repeat split; auto; lia).
      apply max_check_ok in M. cbn [mx_consumed mx_max] in M. destruct M as [M1 M2].
      cbn [mx_inner mx_consumed mx_max] in X.
      destruct (dec_decode rem_metered fuel (s, k) buf e) as [[s' k'] r'] eqn:Y.
      apply rem_metered_call in Y. destruct Y as (-> & Y1 & Y2).
      assert (CL : (rem_claim s buf e <= n)%N) by (unfold rem_claim; destruct (rm_eos s); lia).
      destruct (rm_eos s) eqn:Z.
      + destruct (Y1 eq_refl) as (-> & ->). unfold u64_add in X. cbn [N.of_nat] in X.
        destruct (_ <=? u64_max)%N; inversion X; subst; cbn; repeat split; lia.
      + destruct (Y2 eq_refl) as [(-> & ->)|(-> & ->)].
        * inversion X; subst; cbn; repeat split; lia.
        * unfold u64_add in X. fold (len buf) in X.
          destruct (_ <=? u64_max)%N eqn:U; inversion X; subst; cbn; rewrite ?len_app2;
            repeat split; lia.
    - destruct s1 as [[s k] c m]. cbn [mx_max mx_inner mx_consumed fst snd] in *. destruct IH as (-> & A & B & C).
      destruct (OK eq_refl) as (i & ->). cbn in X. unfold rem_finish in X.
      destruct (rm_eos s); inversion X; subst. cbn. repeat split; lia. }
  destruct K as (_ & K1 & K2 & K3). split; auto. lia.
Qed.
Print Assumptions C85_max_bytes_remaining.

Lemma mono_metered_call : forall I (f : MonoDecode I) fuel st k buf e st2 k2 r,
  dec_decode (mono_metered f) fuel (st, k) buf e = ((st2, k2), r) ->
  k2 = N.max k (mono_claim st buf e) /\
  ((is_reached e = false /\ st2 = mkMonoDec (md_item st) (md_buf st ++ buf) /\ r = Ok (length buf)) \/
   (is_reached e = true /\ exists i n, st2 = mkMonoDec (Some i) [] /\ r = Ok n /\ n <= length buf) \/
   (is_reached e = true /\ st2 = st /\ exists x, r = Err x)).
Proof.
  intros I f fuel st k buf e st2 k2 r. cbn [dec_decode mono_metered metered fst snd mono_decoder]. unfold mono_decode.
  destruct (is_reached e) eqn:Z.
  - destruct (f (md_buf st ++ buf)) as [[i|x] m]; intros X; inversion X; subst; (split; [reflexivity|]); right; eauto.
    left. split; auto. do 2 eexists. split; [reflexivity|]. split; [reflexivity|]. lia.
  - intros X; inversion X; subst. split; auto.
Qed.
(** The same for [MonolithicDecoder], which must not be given bytes while its item waits to be taken. *)
Theorem C85_max_bytes_monolithic : forall I (f : MonoDecode I) n st, (n <= u64_max)%N ->
  life (max_decoder (mono_metered f)) false false (max_new (mono_dec_new, 0%N) n) st ->
  (snd (mx_inner st) <= n)%N /\ (len (md_buf (fst (mx_inner st))) <= n)%N.
Proof.
  intros I f n st LN H.
  assert (K : mx_max st = n /\ (snd (mx_inner st) <= n)%N /\ (mx_consumed st <= n)%N /\
              (len (md_buf (fst (mx_inner st))) <= mx_consumed st)%N /\
              (md_item (fst (mx_inner st)) <> None -> md_buf (fst (mx_inner st)) = [])).
  { induction H as [|s1 fuel buf e s2 r H IH ID X|s1 s2 r H IH OK X].
    - cbn. repeat split; try lia.
    - destruct s1 as [[s k] c m]. cbn [mx_max mx_inner mx_consumed fst snd] in *.
      destruct IH as (-> & A & B & C & E). specialize (ID eq_refl). cbn in ID.
      cbn [dec_decode max_decoder] in X. unfold max_decode in X.
      destruct (max_check _ buf e) as [[]| | |] eqn:M;
        try (inversion X; subst; cbn; repeat split; auto; lia).
      apply max_check_ok in M. cbn [mx_consumed mx_max] in M. destruct M as [M1 M2].
      cbn [mx_inner mx_consumed mx_max] in X.
      destruct (dec_decode (mono_metered f) fuel (s, k) buf e) as [[s' k'] r'] eqn:Y.
      apply mono_metered_call in Y. destruct Y as (-> & Y).
      assert (CL : (mono_claim s buf e <= n)%N) by (unfold mono_claim; destruct (is_reached e); lia).
      assert (NI : md_item s = None) by (destruct (md_item s); [discriminate|reflexivity]).
      destruct Y as [(_ & -> & ->)|[(_ & i & j & -> & -> & J)|(_ & -> & x & ->)]]; unfold u64_add in X; fold (len buf) in X.
      + destruct (_ <=? u64_max)%N eqn:U; inversion X; subst; cbn; rewrite ?len_app2, NI; repeat split; try lia; congruence.
      + unfold len in M2. destruct (_ <=? u64_max)%N eqn:U; inversion X; subst; cbn; repeat split; try lia; congruence.
      + inversion X; subst; cbn; repeat split; auto; lia.
    - destruct s1 as [[s k] c m]. cbn [mx_max mx_inner mx_consumed fst snd] in *.
      destruct IH as (-> & A & B & C & E).
      destruct (OK eq_refl) as (i & ->). cbn in X.
      destruct (md_item s) eqn:Z; inversion X; subst. cbn. rewrite E by congruence. cbn. repeat split; auto; lia. }
  destruct K as (_ & K1 & K2 & K3 & _). split; auto. lia.
Qed.
Print Assumptions C85_max_bytes_monolithic.

(** A [finish_decoding] that comes too early returns an error, and gives the sender a new budget. *)
Definition ex_limited := max_decoder rem_metered.
Theorem C85_early_finish_refuted :
  exists st, life ex_limited false true (max_new (rem_dec_new, 0%N) 2) st /\
    (2 < len (rm_buf (fst (mx_inner st))))%N.
Proof.
  eexists. split.
  - eapply life_decode with (fuel := 0) (buf := [x03; x04]) (e := eos_new false).
    + eapply life_finish.
      * eapply life_decode with (fuel := 0) (buf := [x01; x02]) (e := eos_new false);
          [apply life_new|reflexivity|reflexivity].
      * discriminate.
      * reflexivity.
    + reflexivity.
    + reflexivity.
  - reflexivity.
Qed.
Print Assumptions C85_early_finish_refuted.

(** ** [length(n)] around it: also never more than [n] bytes, whatever the calls *)
Theorem C85_length_remaining : forall n st,
  life (length_decoder rem_metered) true true (length_new (rem_dec_new, 0%N) n) st ->
  (snd (ln_inner st) <= n)%N /\ (len (rm_buf (fst (ln_inner st))) <= n)%N.
Proof.
  intros n st H.
  assert (K : ln_expected st = n /\ (snd (ln_inner st) <= n)%N /\
              if rm_eos (fst (ln_inner st)) then ln_remaining st = 0%N /\ (len (rm_buf (fst (ln_inner st))) <= n)%N
              else (len (rm_buf (fst (ln_inner st))) + ln_remaining st = n)%N /\
                   (ln_remaining st = 0%N -> len (rm_buf (fst (ln_inner st))) = 0%N)).
  { induction H as [|s1 fuel buf e s2 r H IH _ X|s1 s2 r H IH OK X].
    - cbn. repeat split; lia.
    - destruct s1 as [[s k] ex rem]. cbn [ln_expected ln_inner ln_remaining fst snd] in *. destruct IH as (-> & A & B).
      cbn [dec_decode length_decoder] in X. unfold length_decode in X. cbn [ln_inner ln_remaining ln_expected] in X.
      set (lim := N.min (len buf) rem) in *.
      set (b := firstn (N.to_nat lim) buf) in *.
      assert (LB : len b = lim) by (apply len_firstn_min; lia).
      assert (LR : (lim <= rem)%N) by (apply N.le_min_r).
      destruct (dec_decode rem_metered fuel (s, k) b (eos_with_remaining (Finite (rem - lim)))) as [[s' k'] r'] eqn:Y.
      apply rem_metered_call in Y. destruct Y as (-> & Y1 & Y2).
      assert (CL : (rem_claim s b (eos_with_remaining (Finite (rem - lim))) <= n)%N).
      { unfold rem_claim. destruct (rm_eos s); [lia|]. cbn [remaining_bytes eos_with_remaining]. rewrite LB. lia. }
      assert (GO : forall st', (let
        '(s'0, r0) := (s', N.max k (rem_claim s b (eos_with_remaining (Finite (rem - lim)))), r') in
         match r0 with
         | Ok size =>
             match u64_sub rem (N.of_nat size) with
             | Some rem' => (mkLength s'0 n rem', Ok size)
             | None => (mkLength s'0 n rem, Panic)
             end
         | r1 => (mkLength s'0 n rem, r1)
         end) = (st', r) ->
         ln_expected st' = n /\ (snd (ln_inner st') <= n)%N /\
         (if rm_eos (fst (ln_inner st')) then ln_remaining st' = 0%N /\ (len (rm_buf (fst (ln_inner st'))) <= n)%N
          else (len (rm_buf (fst (ln_inner st'))) + ln_remaining st' = n)%N /\
               (ln_remaining st' = 0%N -> len (rm_buf (fst (ln_inner st'))) = 0%N))).
      { intros st' X'. destruct (rm_eos s) eqn:Z.
        - destruct (Y1 eq_refl) as (-> & ->). unfold u64_sub in X'. cbn [N.of_nat] in X'.
          destruct (_ <=? rem)%N; inversion X'; subst; cbn; rewrite Z; repeat split; lia.
        - destruct (Y2 eq_refl) as [(-> & ->)|(-> & ->)].
          + inversion X'; subst; cbn; rewrite Z; repeat split; lia.
          + unfold u64_sub in X'. fold (len b) in X'. rewrite LB in X'.
            apply N.leb_le in LR. rewrite LR in X'. apply N.leb_le in LR. inversion X'; subst; cbn [ln_expected ln_inner ln_remaining fst snd rm_eos rm_buf].
            split; [reflexivity|]. split; [lia|]. rewrite len_app2, LB.
            destruct (rem - lim =? 0)%N eqn:R; lia. }
      destruct (bc_to_u64 (remaining_bytes e)) as [m|]; [|exact (GO _ X)].
      destruct (u64_add m (len buf)) as [m'|]; [|inversion X; subst; cbn; auto].
      destruct (rem - lim <=? m')%N; [exact (GO _ X)|inversion X; subst; cbn; auto].
    - destruct s1 as [[s k] ex rem]. cbn [ln_expected ln_inner ln_remaining fst snd] in *. destruct IH as (-> & A & B).
      cbn [dec_finish length_decoder ln_remaining ln_inner ln_expected] in X.
      destruct (rem =? 0)%N eqn:Z; [|inversion X; subst; cbn; auto].
      cbn [dec_finish rem_metered metered fst snd rem_decoder] in X. unfold rem_finish in X.
      destruct (rm_eos s) eqn:E; inversion X; subst; cbn; rewrite ?E; repeat split; auto; lia. }
  destruct K as (_ & K1 & K2). split; auto. destruct (rm_eos _); lia.
Qed.
Print Assumptions C85_length_remaining.

(** ** A length prefix inside [max_bytes]: the limit bounds what is consumed, not what is asked for *)
Definition ex_prefixed :=
  max_decoder (and_then_decoder U32beDecoder (length_decoder rem_metered) (fun n => length_new (rem_dec_new, 0%N) n)).
Theorem C85_prefix_refuted :
  exists st s1, life ex_prefixed false false (max_new (and_then_new (num_dec_new 4)) 16) st /\
    (mx_consumed st <= 4)%N /\ at_inner1 (mx_inner st) = Some s1 /\ snd (ln_inner s1) = 4294967295%N.
Proof.
  do 2 eexists. split; [|split; [|split]].
  - eapply life_decode with (fuel := 0) (buf := [xff; xff; xff; xff]) (e := eos_new false);
      [apply life_new|reflexivity|vm_compute; reflexivity].
  - cbn. discriminate.
  - reflexivity.
  - reflexivity.
Qed.
Print Assumptions C85_prefix_refuted.
(** With the limit inside the length the announcement is refused before anything is asked for. *)
Theorem C85_limit_inside : forall n m fuel buf e st r, (n < m)%N -> (m <= u64_max)%N ->
  dec_decode (length_decoder (max_decoder rem_metered)) fuel (length_new (max_new (rem_dec_new, 0%N) n) m) buf e = (st, r) ->
  st = length_new (max_new (rem_dec_new, 0%N) n) m /\
  (r = Err InvalidInput \/
   exists a, remaining_bytes e = Finite a /\ ((r = Err UnexpectedEos /\ (a < m)%N) \/ (r = Panic /\ (u64_max < a + len buf)%N))).
Proof.
  intros n m fuel buf e st r L U X. cbn [dec_decode length_decoder] in X. unfold length_decode in X.
  cbn [ln_remaining length_new ln_inner ln_expected] in X.
  assert (LB : len (firstn (N.to_nat (N.min (len buf) m)) buf) = N.min (len buf) m) by (apply len_firstn_min; lia).
  assert (C : dec_decode (max_decoder rem_metered) fuel (max_new (rem_dec_new, 0%N) n)
                (firstn (N.to_nat (N.min (len buf) m)) buf) (eos_with_remaining (Finite (m - N.min (len buf) m)))
              = (max_new (rem_dec_new, 0%N) n, Err InvalidInput)).
  { cbn [dec_decode max_decoder]. unfold max_decode, max_check. cbn [remaining_bytes eos_with_remaining].
    unfold u64_sub, u64_add. cbn [mx_consumed mx_max max_new]. rewrite LB.
    replace (N.min (len buf) m + (m - N.min (len buf) m))%N with m by lia.
    destruct (0 <=? n)%N eqn:A; [|lia]. destruct (m <=? u64_max)%N eqn:B; [|lia].
    destruct (m <=? n - 0)%N eqn:E; [lia|reflexivity]. }
  rewrite C in X.
  destruct (remaining_bytes e) as [a| |]; cbn [bc_to_u64] in X; try (inversion X; subst; auto).
  unfold u64_add in X.
  destruct (a + len buf <=? u64_max)%N eqn:B; [|inversion X; subst; split; auto; right; exists a; split; auto; right; split; auto; lia].
  destruct (m - N.min (len buf) m <=? a + len buf)%N eqn:E; inversion X; subst; split; auto.
  right. exists a. split; auto. left. split; auto. lia.
Qed.
Print Assumptions C85_limit_inside.

(** ** The hypotheses are met *)
Example C85_example : exists st,
  life (max_decoder rem_metered) true false (max_new (rem_dec_new, 0%N) 5) st /\
  snd (mx_inner st) = 5%N /\ rm_buf (fst (mx_inner st)) = [x01; x02].
Proof.
  eexists. split; [|split].
  - eapply life_decode with (fuel := 0) (buf := [x01; x02]) (e := Finite 3);
      [apply life_new|discriminate|reflexivity].
  - reflexivity.
  - reflexivity.
Qed.
Example C85_length_example : exists st,
  life (length_decoder rem_metered) true true (length_new (rem_dec_new, 0%N) 3) st /\
  snd (ln_inner st) = 3%N /\ rm_buf (fst (ln_inner st)) = [x01].
Proof.
  eexists. split; [|split].
  - eapply life_finish.
    + eapply life_decode with (fuel := 0) (buf := [x01]) (e := eos_new false);
        [apply life_new|discriminate|reflexivity].
    + discriminate.
    + reflexivity.
  - reflexivity.
  - reflexivity.
Qed.
Example C85_monolithic_example : forall I (f : MonoDecode I), exists st,
  life (max_decoder (mono_metered f)) false false (max_new (mono_dec_new, 0%N) 5) st /\
  snd (mx_inner st) = 2%N /\ md_buf (fst (mx_inner st)) = [x01; x02].
Proof.
  intros I f. eexists. split; [|split].
  - eapply life_decode with (fuel := 0) (buf := [x01; x02]) (e := eos_new false);
      [apply life_new|reflexivity|reflexivity].
  - reflexivity.
  - reflexivity.
Qed.
