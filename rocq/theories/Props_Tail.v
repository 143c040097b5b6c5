(** * C88: decoders that run to the end of the stream, anywhere but in the last place *)
From Coq Require Import Lia ZifyBool ZifyNat ZifyN.
From Verif Require Import Session Lib Prim Comb Tuple DecPrim DecComb Drive Fixnum.
Set Implicit Arguments.
Local Arguments Nat.eqb : simpl never.
Local Arguments Nat.ltb : simpl never.
Local Arguments Nat.leb : simpl never.
Local Arguments N.eqb : simpl never.

(** ** Specification: the call that first announces the end of a stream of [n] bytes, if any: the number of bytes it brings *)
Fixpoint ending (n : nat) (sched : schedule) : option nat :=
  match sched with
  | [] => None
  | (k, h) :: sched' =>
      match h with HExact => if n <=? k then Some n else ending (n - k) sched' | _ => ending (n - k) sched' end
  end.
(** The decoder refuses the empty stream. *)
Definition refuses_empty {S I} (D : Decoder S I) (s : S) (k : ErrorKind) : Prop :=
  dec_idle D s = false /\ forall fuel, snd (dec_decode D fuel s [] (eos_new true)) = Err k.

(** ** One call of such a decoder *)
Definition tells_end (w : list byte) (k : nat) (h : hint) : bool :=
  match h with HExact => length w <=? k | _ => false end.
Lemma tail_step : forall S I (D : Decoder S I) P R s w i fuel k h,
  step_ok D ToEos P R -> R s w i -> dec_idle D s = false -> h <> HNever -> length w < fuel ->
  exists s', dec_decode D fuel s (firstn k w) (hint_eos h (skipn k w)) = (s', Ok (length (firstn k w))) /\
    dec_idle D s' = tells_end w k h /\ R s' (skipn k w) i.
Proof.
  intros S I D P R s w i fuel k h SO HR HI NH F. pose proof (so_len SO HR) as L.
  assert (T : truthful ToEos (firstn k w) (skipn k w) (hint_eos h (skipn k w))).
  { destruct h; cbn; [left; auto|right; left; split; auto|contradiction NH; auto].
    rewrite <- (firstn_skipn k w) in L. unfold len in *. rewrite app_length in L. unfold u64_max, isize_max in *. lia. }
  assert (F1 : length (firstn k w) < fuel) by (rewrite firstn_length; lia).
  destruct (skipn k w) as [|b w'] eqn:K.
  - assert (W : firstn k w = w) by (rewrite <- (firstn_skipn k w) at 2; rewrite K; now rewrite app_nil_r). rewrite W in *.
    assert (KL : length w <= k) by (apply (f_equal (@length byte)) in K; rewrite skipn_length in K; cbn in K; lia).
    destruct (@so_last _ _ _ _ _ _ SO s i fuel w [] [] (hint_eos h []) HR HI) as (s' & A1 & A2 & A3).
    + auto.
    + now rewrite app_nil_r.
    + now rewrite app_nil_r.
    + rewrite app_nil_r in A1. exists s'. split; [exact A1|]. split; [|exact A3]. rewrite A2. unfold tells_end.
      destruct h; cbn; auto. symmetry. now apply Nat.leb_le.
  - destruct (@so_more _ _ _ _ _ _ SO s i fuel (firstn k w) (b :: w') [] (hint_eos h (b :: w'))) as (s' & A1 & A2 & A3); auto.
    + now rewrite <- K, firstn_skipn.
    + discriminate.
    + now rewrite app_nil_r.
    + exists s'. split; [exact A1|]. split; [|exact A3]. rewrite A2. unfold tells_end. destruct h; auto.
      apply (f_equal (@length byte)) in K. rewrite skipn_length in K. cbn in K. symmetry. apply Nat.leb_gt. lia.
Qed.
Lemma skip_first : forall k (w : list byte), skipn (length (firstn k w)) w = skipn k w.
Proof.
  intros. rewrite firstn_length. destruct (Nat.le_ge_cases k (length w)).
  - now rewrite Nat.min_l.
  - rewrite Nat.min_r by auto. now rewrite !skipn_all2.
Qed.
Lemma tells_cons : forall w k h sched, h <> HNever ->
  ending (length w) ((k, h) :: sched) = if tells_end w k h then Some (length w) else ending (length (skipn k w)) sched.
Proof. intros w k h sched N. cbn. rewrite skipn_length. destruct h; auto. Qed.

(** Two decoders one after the other: the second gets the empty stream. *)
Lemma tail_try : forall S0 S1 I0 I1 (D0 : Decoder S0 I0) (D1 : Decoder S1 I1) P R s0 w i n h fuel,
  step_ok D0 ToEos P R -> R s0 w i -> dec_idle D0 s0 = false -> h <> HNever -> length w < fuel ->
  exists s', R s' (skipn n w) i /\ dec_idle D0 s' = tells_end w n h /\
    if tells_end w n h
    then try_decode D0 fuel s0 0 (firstn n w) (hint_eos h (skipn n w)) = TGo s' (length w) /\ skipn n w = [] /\
      forall s1, try_decode D1 fuel s1 (length w) (firstn n w) (hint_eos h (skipn n w)) =
        (if dec_idle D1 s1 then TGo s1 (length w)
         else match dec_decode D1 fuel s1 [] (eos_new true) with
              | (t, Ok m) => if dec_idle D1 t then TGo t (length w + m) else TRet t (Ok (length w + m))
              | (t, r) => TRet t r
              end)
    else try_decode D0 fuel s0 0 (firstn n w) (hint_eos h (skipn n w)) = TRet s' (Ok (length (firstn n w))).
Proof.
  intros S0 S1 I0 I1 D0 D1 P R s0 w i n h fuel SO HR HI NH F.
  destruct (@tail_step _ _ D0 P R s0 w i fuel n h SO HR HI NH F) as (s' & A1 & A2 & A3).
  exists s'. split; auto. split; auto.
  assert (TR : try_decode D0 fuel s0 0 (firstn n w) (hint_eos h (skipn n w)) =
     if tells_end w n h then TGo s' (length (firstn n w)) else TRet s' (Ok (length (firstn n w)))).
  { unfold try_decode. rewrite HI. change (slice_from 0 (firstn n w)) with (Some (firstn n w)). cbv beta iota. rewrite A1, A2. reflexivity. }
  destruct (tells_end w n h) eqn:T; auto. unfold tells_end in T. destruct h; try discriminate. apply Nat.leb_le in T.
  assert (W : firstn n w = w) by (now apply firstn_all2). assert (K : skipn n w = []) by (now apply skipn_all2).
  rewrite W, K in *. split; auto. split; auto. intros s1. unfold try_decode. destruct (dec_idle D1 s1); auto.
  replace (slice_from (length w) w) with (Some (@nil byte)) by (unfold slice_from; now rewrite Nat.leb_refl, skipn_all).
  change (hint_eos HExact []) with (eos_new true).
  destruct (dec_decode D1 fuel s1 [] (eos_new true)) as [t [m|e| |]]; reflexivity.
Qed.

(** ** Tuples: the component after it gets the empty stream, at the end *)
Lemma tuple2_call : forall S0 S1 I0 I1 (D0 : Decoder S0 I0) (D1 : Decoder S1 I1) fuel s0 s1 buf e,
  dec_decode (tuple2_decoder D0 D1) fuel (s0, s1) buf e =
  match try_decode D0 fuel s0 0 buf e with
  | TRet s0' r => ((s0', s1), r)
  | TGo s0' off => match try_decode D1 fuel s1 off buf e with
                   | TRet s1' r => ((s0', s1'), r) | TGo s1' off' => ((s0', s1'), Ok off') end
  end.
Proof.
  intros. cbn. destruct (try_decode D0 fuel s0 0 buf e); auto. destruct (try_decode D1 fuel s1 off buf e); auto.
Qed.
Theorem C88_tuple : forall S0 S1 I0 I1 (D0 : Decoder S0 I0) (D1 : Decoder S1 I1) P s0 s1 w i k fuel sched,
  parses D0 ToEos P s0 w i -> dec_idle D0 s0 = false -> refuses_empty D1 s1 k -> ends sched -> length w < fuel ->
  exists s rest r, feed (tuple2_decoder D0 D1) fuel (s0, s1) w sched = (s, rest, r) /\
    match ending (length w) sched with
    | None => r = Ok tt /\ rest = skipn (offered sched) w /\ dec_idle (tuple2_decoder D0 D1) s = false
    | Some _ => r = Err k
    end.
Proof.
  intros S0 S1 I0 I1 D0 D1 P s0 s1 w i k fuel sched (R & SO & HR) HI (NI & RE) EN. revert s0 w HR HI.
  induction EN as [|[n h] sched NH EN IH]; intros s0 w HR HI F.
  - cbn [feed ending offered fold_right skipn]. do 3 eexists. split; [reflexivity|]. cbn. rewrite HI. auto.
  - cbn in NH. rewrite (tells_cons w n sched NH).
    destruct (@tail_try _ _ _ _ D0 D1 P R s0 w i n h fuel SO HR HI NH F) as (s' & A1 & A2 & A3).
    cbn [feed]. replace (dec_idle (tuple2_decoder D0 D1) (s0, s1)) with false by (cbn; now rewrite HI).
    rewrite tuple2_call. destruct (tells_end w n h).
    + destruct A3 as (-> & _ & ->). rewrite NI. specialize (RE fuel).
      destruct (dec_decode D1 fuel s1 [] (eos_new true)) as [t r]. cbn in RE. subst r.
      do 3 eexists. split; reflexivity.
    + rewrite A3. rewrite skip_first. cbn [offered fold_right fst]. fold (offered sched). rewrite Nat.add_comm, <- skipn_skipn.
      apply IH; auto. rewrite skipn_length. lia.
Qed.
Print Assumptions C88_tuple.
(** If that component takes the empty stream, the tuple is complete in the call that announces the end. *)
Theorem C88_tuple_empty : forall S0 S1 I0 I1 (D0 : Decoder S0 I0) (D1 : Decoder S1 I1) P P1 m s0 s1 w i j fuel sched,
  parses D0 ToEos P s0 w i -> dec_idle D0 s0 = false -> parses D1 m P1 s1 [] j -> ends sched -> length w < fuel ->
  exists s, feed (tuple2_decoder D0 D1) fuel (s0, s1) w sched = (s, skipn (offered sched) w, Ok tt) /\
    match ending (length w) sched with
    | None => dec_idle (tuple2_decoder D0 D1) s = false
    | Some _ => dec_idle (tuple2_decoder D0 D1) s = true /\ snd (dec_finish (tuple2_decoder D0 D1) s) = Ok (i, j)
    end.
Proof.
  intros S0 S1 I0 I1 D0 D1 P P1 m s0 s1 w i j fuel sched (R & SO & HR) HI (R1 & SO1 & HR1) EN. revert s0 w HR HI.
  induction EN as [|[n h] sched NH EN IH]; intros s0 w HR HI F.
  - cbn [feed ending offered fold_right skipn]. eexists. split; [reflexivity|]. cbn. now rewrite HI.
  - cbn in NH. rewrite (tells_cons w n sched NH).
    destruct (@tail_try _ _ _ _ D0 D1 P R s0 w i n h fuel SO HR HI NH F) as (s' & A1 & A2 & A3).
    cbn [feed]. replace (dec_idle (tuple2_decoder D0 D1) (s0, s1)) with false by (cbn; now rewrite HI).
    rewrite tuple2_call. cbn [offered fold_right fst]. fold (offered sched). rewrite Nat.add_comm, <- skipn_skipn.
    destruct (tells_end w n h).
    + destruct A3 as (-> & K & ->). rewrite K in *.
      destruct (so_idle SO A1 A2) as (_ & _ & s0' & FI & _).
      assert (G : exists t, (if dec_idle D1 s1 then TGo s1 (length w)
         else match dec_decode D1 fuel s1 [] (eos_new true) with
              | (t, Ok m) => if dec_idle D1 t then TGo t (length w + m) else TRet t (Ok (length w + m))
              | (t, r) => TRet t r
              end) = TGo t (length w) /\ R1 t [] j /\ dec_idle D1 t = true).
      { destruct (dec_idle D1 s1) eqn:X; eauto.
        destruct (@so_last _ _ _ _ _ _ SO1 s1 j fuel [] [] [] (eos_new true) HR1 X) as (t & B1 & B2 & B3); auto.
        - right; left. cbn. split; auto. cbv; discriminate.
        - cbn. lia.
        - cbn [app length] in B1. rewrite B1. assert (Q : dec_idle D1 t = true) by (rewrite B2; now destruct m).
          rewrite Q, Nat.add_0_r. eauto. }
      destruct G as (t & -> & HT & IT).
      destruct (so_idle SO1 HT IT) as (_ & _ & t' & FT & _).
      assert (IDL : dec_idle (tuple2_decoder D0 D1) (s', t) = true) by (cbn; now rewrite A2, IT).
      exists (s', t). split; [|split; [exact IDL|]].
      * rewrite skipn_all, skipn_nil. destruct sched as [|[n2 h2] sched]; cbn [feed]; now rewrite ?IDL.
      * cbn. rewrite FI, FT. reflexivity.
    + rewrite A3. rewrite skip_first. apply IH; auto. rewrite skipn_length. lia.
Qed.
Print Assumptions C88_tuple_empty.

(** ** [and_then]: the body gets the empty stream *)
Theorem C88_and_then : forall S0 S1 I0 I1 (D0 : Decoder S0 I0) (D1 : Decoder S1 I1) (f : I0 -> S1) P s0 w i k fuel sched,
  parses D0 ToEos P s0 w i -> dec_idle D0 s0 = false -> refuses_empty D1 (f i) k -> ends sched -> length w < fuel ->
  exists s rest r, feed (and_then_decoder D0 D1 f) fuel (and_then_new s0) w sched = (s, rest, r) /\
    match ending (length w) sched with
    | None => r = Ok tt /\ rest = skipn (offered sched) w /\ dec_idle (and_then_decoder D0 D1 f) s = false
    | Some _ => r = Err k
    end.
Proof.
  intros S0 S1 I0 I1 D0 D1 f P s0 w i k fuel sched (R & SO & HR) HI (NI & RE) EN. revert s0 w HR HI.
  induction EN as [|[n h] sched NH EN IH]; intros s0 w HR HI F.
  - cbn [feed ending offered fold_right skipn]. do 3 eexists. split; [reflexivity|]. auto.
  - cbn in NH. rewrite (tells_cons w n sched NH).
    destruct (@tail_try _ _ _ _ D0 D1 P R s0 w i n h fuel SO HR HI NH F) as (s' & A1 & A2 & A3).
    cbn [feed dec_idle and_then_decoder at_inner1 and_then_new dec_decode]. unfold and_then_decode.
    cbn [at_inner1 and_then_new at_inner0].
    destruct (tells_end w n h).
    + destruct A3 as (-> & K & A3). destruct (so_idle SO A1 A2) as (_ & _ & s0' & FI & _). rewrite FI.
      unfold and_then_body. rewrite A3, NI. specialize (RE fuel).
      destruct (dec_decode D1 fuel (f i) [] (eos_new true)) as [t r]. cbn in RE. subst r.
      do 3 eexists. split; reflexivity.
    + rewrite A3. rewrite skip_first. cbn [offered fold_right fst]. fold (offered sched). rewrite Nat.add_comm, <- skipn_skipn.
      apply (IH s' (skipn n w)); auto. rewrite skipn_length. lia.
Qed.
Print Assumptions C88_and_then.

(** ** [collect]: one item if the call that announces the end brings bytes, none if it brings no bytes *)
Theorem C88_collect : forall S I (D : Decoder S I) P s w i fuel sched,
  parses D ToEos P s w i -> dec_idle D s = false -> ends sched -> length w < fuel ->
  exists st, feed (collect_decoder D) fuel (collect_new s) w sched = (st, skipn (offered sched) w, Ok tt) /\
    match ending (length w) sched with
    | None => dec_idle (collect_decoder D) st = false
    | Some n => dec_idle (collect_decoder D) st = true /\
                snd (dec_finish (collect_decoder D) st) = Ok (if n =? 0 then [] else [i])
    end.
Proof.
  intros S I D P s w i fuel sched (R & SO & HR) HI EN. revert s w HR HI.
  induction EN as [|[n h] sched NH EN IH]; intros s w HR HI F.
  - cbn [feed ending offered fold_right skipn]. eexists. split; reflexivity.
  - cbn in NH. rewrite (tells_cons w n sched NH).
    destruct (@tail_try _ _ _ _ D D P R s w i n h fuel SO HR HI NH F) as (s' & A1 & A2 & A3).
    cbn [feed dec_idle collect_decoder cl_eos collect_new dec_decode].
    cbn [cl_inner cl_items collect_new]. cbn [offered fold_right fst]. fold (offered sched). rewrite Nat.add_comm, <- skipn_skipn.
    destruct fuel as [|fuel]; [lia|].
    assert (G : forall st rest, cl_eos st = true -> feed (collect_decoder D) (Datatypes.S fuel) st rest sched = (st, rest, Ok tt)).
    { intros st rest E. destruct sched as [|[n2 h2] sched]; cbn [feed dec_idle collect_decoder]; now rewrite ?E. }
    destruct (firstn n w) as [|b buf] eqn:B.
    + (* an empty buffer *)
      cbn [collect_loop length]. replace (0 <? 0) with false by reflexivity. cbn [skipn].
      assert (T : is_reached (hint_eos h (skipn n w)) = tells_end w n h).
      { unfold tells_end. destruct h; cbn; auto. unfold len. destruct (skipn n w) as [|c r] eqn:K.
        - cbn. symmetry. apply Nat.leb_le. apply (f_equal (@length byte)) in K. rewrite skipn_length in K. cbn in K. lia.
        - transitivity false; [|symmetry; apply Nat.leb_gt; apply (f_equal (@length byte)) in K; rewrite skipn_length in K; cbn in K; lia].
          unfold len. cbn [length]. lia. }
      rewrite T. destruct (tells_end w n h) eqn:TE.
      * destruct A3 as (_ & K & _). assert (w = []) by (rewrite <- (firstn_skipn n w), B, K; reflexivity). subst w.
        exists (mkCollect s [] true). rewrite G by reflexivity. rewrite !skipn_nil. split; auto.
      * assert (skipn n w = w) as -> by (rewrite <- (firstn_skipn n w) at 2; now rewrite B).
        apply (IH s w HR HI F).
    + rewrite <- B in *. cbn [collect_loop]. replace (0 <? length (firstn n w)) with true by (rewrite B; reflexivity).
      destruct (tells_end w n h) eqn:TE.
      * destruct A3 as (-> & K & _). destruct (so_idle SO A1 A2) as (_ & _ & s0' & FI & _). rewrite FI.
        assert (W : firstn n w = w) by (rewrite <- (firstn_skipn n w) at 2; now rewrite K, app_nil_r). rewrite W, K in *.
        exists (mkCollect s0' [i] true). rewrite skipn_nil.
        assert (RE : is_reached (hint_eos h []) = true).
        { unfold tells_end in TE. destruct h; try discriminate. reflexivity. }
        replace (length w =? 0) with false by (rewrite B; reflexivity).
        destruct fuel; cbn [collect_loop]; rewrite Nat.ltb_irrefl, RE, skipn_all, G by reflexivity; auto.
      * rewrite A3, skip_first. apply (IH s' (skipn n w)); auto. rewrite skipn_length. lia.
Qed.
Print Assumptions C88_collect.

(** ** [collectn(n)]: only [n = 1] can succeed, and only if the call that announces the end brings bytes *)
Theorem C88_collectn : forall S I (D : Decoder S I) P s w i c fuel sched,
  parses D ToEos P s w i -> dec_idle D s = false -> ends sched -> length w < fuel -> 0 < c ->
  exists st rest r, feed (collectn_decoder D) fuel (collectn_new s c) w sched = (st, rest, r) /\
    match ending (length w) sched with
    | None => r = Ok tt /\ rest = skipn (offered sched) w /\ dec_idle (collectn_decoder D) st = false
    | Some n => if (c =? 1) && negb (n =? 0)
                then r = Ok tt /\ rest = [] /\ dec_idle (collectn_decoder D) st = true /\
                     snd (dec_finish (collectn_decoder D) st) = Ok [i]
                else r = Err UnexpectedEos
    end.
Proof.
  intros S I D P s w i c fuel sched (R & SO & HR) HI EN. revert s w HR HI.
  induction EN as [|[n h] sched NH EN IH]; intros s w HR HI F C.
  - cbn [feed ending offered fold_right skipn]. do 3 eexists. split; [reflexivity|]. repeat split; auto.
    cbn. apply Nat.eqb_neq. lia.
  - cbn in NH. rewrite (tells_cons w n sched NH).
    destruct (@tail_try _ _ _ _ D D P R s w i n h fuel SO HR HI NH F) as (s' & A1 & A2 & A3).
    cbn [feed dec_idle collectn_decoder cn_remaining collectn_new dec_decode].
    cbn [cn_inner cn_items cn_remaining collectn_new]. cbn [offered fold_right fst]. fold (offered sched). rewrite Nat.add_comm, <- skipn_skipn.
    destruct c as [|c]; [lia|]. replace (Datatypes.S c =? 0) with false by reflexivity.
    assert (G : forall st rest, cn_remaining st = 0 -> feed (collectn_decoder D) fuel st rest sched = (st, rest, Ok tt)).
    { intros st rest E. destruct sched as [|[n2 h2] sched]; cbn [feed dec_idle collectn_decoder]; now rewrite ?E. }
    cbn [collectn_loop]. replace (Datatypes.S c =? 0) with false by reflexivity. cbn [negb andb].
    destruct (firstn n w) as [|b buf] eqn:B.
    + (* an empty buffer *)
      cbn [length]. replace (0 <? 0) with false by reflexivity.
      assert (T : is_reached (hint_eos h (skipn n w)) = tells_end w n h).
      { unfold tells_end. destruct h; cbn; auto. destruct (skipn n w) as [|x r] eqn:K.
        - cbn. symmetry. apply Nat.leb_le. apply (f_equal (@length byte)) in K. rewrite skipn_length in K. cbn in K. lia.
        - transitivity false; [|symmetry; apply Nat.leb_gt; apply (f_equal (@length byte)) in K; rewrite skipn_length in K; cbn in K; lia].
          unfold len. cbn [length]. lia. }
      rewrite T. destruct (tells_end w n h) eqn:TE.
      * destruct A3 as (_ & K & _). assert (w = []) by (rewrite <- (firstn_skipn n w), B, K; reflexivity). subst w.
        do 3 eexists. split; [reflexivity|]. cbn [length]. replace (0 =? 0) with true by reflexivity.
        now rewrite andb_false_r.
      * cbn [skipn]. assert (skipn n w = w) as -> by (rewrite <- (firstn_skipn n w) at 2; now rewrite B).
        apply (IH s w HR HI F C).
    + rewrite <- B in *. replace (0 <? length (firstn n w)) with true by (rewrite B; reflexivity).
      destruct (tells_end w n h) eqn:TE.
      * destruct A3 as (-> & K & _). destruct (so_idle SO A1 A2) as (_ & _ & s0' & FI & _). rewrite FI.
        assert (W : firstn n w = w) by (rewrite <- (firstn_skipn n w) at 2; now rewrite K, app_nil_r). rewrite W, K in *.
        assert (RE : is_reached (hint_eos h []) = true).
        { unfold tells_end in TE. destruct h; try discriminate. reflexivity. }
        replace (length w =? 0) with false by (rewrite B; reflexivity). cbn [negb]. rewrite andb_true_r.
        destruct c as [|c]; cbn [collectn_loop].
        -- replace (0 =? 0) with true by reflexivity. cbn [negb andb]. rewrite skipn_all, G by reflexivity.
           do 3 eexists. split; [reflexivity|]. replace (1 =? 1) with true by reflexivity. repeat split.
        -- rewrite Nat.ltb_irrefl, RE. replace (Datatypes.S c =? 0) with false by reflexivity. cbn [negb andb rcast rbind].
           do 3 eexists. split; [reflexivity|]. now replace (Datatypes.S (Datatypes.S c) =? 1) with false by reflexivity.
      * rewrite A3, skip_first. apply (IH s' (skipn n w)); auto. rewrite skipn_length. lia.
Qed.
Print Assumptions C88_collectn.

(** ** [decode_exact] learns of the end by a read of no bytes

    So through it [collect] loses the whole stream without an error, and [collectn] fails. *)
Lemma tail_ask : forall S I (D : Decoder S I) P R s w i,
  step_ok D ToEos P R -> R s w i -> dec_idle D s = false -> exists q, dec_req D s = Ok q /\ 0 < exact_ask q.
Proof.
  intros S I D P R s w i SO HR HI. pose proof (so_req SO HR HI) as Q. cbn in Q.
  pose proof (eq_refl : N.of_nat io_buf_size = 1024%N) as IO.
  destruct (dec_req D s) as [[n| |]|k| |]; try contradiction; eexists; (split; [reflexivity|]); unfold exact_ask.
  - destruct (N.ltb_spec n (N.of_nat io_buf_size)); lia.
  - unfold io_buf_size. lia.
  - lia.
Qed.
Theorem C88_exact_collect_refuted : forall S I (D : Decoder S I) P s w i r fuel ifuel,
  parses D ToEos P s w i -> dec_idle D s = false -> rd_data r = w -> short_reads r ->
  length w < fuel -> length w < ifuel ->
  exists s' r', decode_exact (collect_decoder D) fuel ifuel (collect_new s) r = (s', r', Ok []) /\ rd_data r' = [].
Proof.
  intros S I D P s w i r fuel ifuel (R & SO & HR) HI RD SR. assert (G : Forall gives (rd_plan r)).
  { eapply Forall_impl; [|exact SR]. intros p (n & ->). exact Logic.I. }
  clear SR. revert s w r HR HI RD G. induction fuel as [|fuel IH]; intros s w r HR HI RD G F FI; [lia|].
  destruct (@tail_ask _ _ D P R s w i SO HR HI) as (q & RQ & Q). cbn [decode_exact dec_req collect_decoder collect_new cl_eos cl_inner]. rewrite RQ.
  cbv zeta. replace (exact_ask q =? 0) with false by lia.
  destruct (@rd_read_gives r (exact_ask q) G Q) as (j & plan' & -> & J & G'). rewrite RD.
  cbn [dec_decode collect_decoder cl_eos collect_new cl_inner cl_items].
  destruct w as [|b w].
  - rewrite firstn_nil, skipn_nil. destruct ifuel as [|ifuel]; [lia|]. do 2 eexists. split; reflexivity.
  - destruct (@tail_try _ _ _ _ D D P R s (b :: w) i j HUnknown ifuel SO HR HI) as (s' & A1 & A2 & A3); [discriminate|auto|].
    cbn [tells_end] in *. replace (length (firstn j (b :: w)) =? 0) with false by (destruct j; [lia|reflexivity]).
    destruct ifuel as [|ifuel]; [lia|]. cbn [collect_loop]. replace (0 <? length (firstn j (b :: w))) with true by (destruct j; [lia|reflexivity]).
    change (eos_new false) with (hint_eos HUnknown (skipn j (b :: w))). rewrite A3, Nat.eqb_refl. cbn [dec_idle collect_decoder cl_eos].
    apply (IH s' (skipn j (b :: w))); auto; rewrite skipn_length; cbn [length] in *; lia.
Qed.
Print Assumptions C88_exact_collect_refuted.
Theorem C88_exact_collectn : forall S I (D : Decoder S I) P s w i r c fuel ifuel,
  parses D ToEos P s w i -> dec_idle D s = false -> rd_data r = w -> short_reads r -> 0 < c ->
  length w < fuel -> length w < ifuel ->
  exists s' r', decode_exact (collectn_decoder D) fuel ifuel (collectn_new s c) r = (s', r', Err UnexpectedEos) /\ rd_data r' = [].
Proof.
  intros S I D P s w i r c fuel ifuel (R & SO & HR) HI RD SR C. assert (G : Forall gives (rd_plan r)).
  { eapply Forall_impl; [|exact SR]. intros p (n & ->). exact Logic.I. }
  clear SR. destruct c as [|c]; [lia|].
  revert s w r HR HI RD G. induction fuel as [|fuel IH]; intros s w r HR HI RD G F FI; [lia|].
  destruct (@tail_ask _ _ D P R s w i SO HR HI) as (q & RQ & Q). cbn [decode_exact dec_req collectn_decoder collectn_new cn_remaining cn_inner].
  replace (Datatypes.S c =? 0) with false by reflexivity. rewrite RQ.
  cbv zeta. replace (exact_ask q =? 0) with false by lia.
  destruct (@rd_read_gives r (exact_ask q) G Q) as (j & plan' & -> & J & G'). rewrite RD.
  cbn [dec_decode collectn_decoder cn_remaining collectn_new cn_inner cn_items collectn_loop].
  replace (Datatypes.S c =? 0) with false by reflexivity.
  destruct w as [|b w].
  - rewrite firstn_nil, skipn_nil. destruct ifuel as [|ifuel]; [lia|]. do 2 eexists. split; reflexivity.
  - destruct (@tail_try _ _ _ _ D D P R s (b :: w) i j HUnknown ifuel SO HR HI) as (s' & A1 & A2 & A3); [discriminate|auto|].
    cbn [tells_end] in *. replace (length (firstn j (b :: w)) =? 0) with false by (destruct j; [lia|reflexivity]).
    replace (0 <? length (firstn j (b :: w))) with true by (destruct j; [lia|reflexivity]).
    change (eos_new false) with (hint_eos HUnknown (skipn j (b :: w))). rewrite A3, Nat.eqb_refl. cbn [dec_idle collectn_decoder cn_remaining].
    replace (Datatypes.S c =? 0) with false by reflexivity.
    apply (IH s' (skipn j (b :: w))); auto; rewrite skipn_length; cbn [length] in *; lia.
Qed.
Print Assumptions C88_exact_collectn.

(** ** The hypotheses are met: the rest of the stream, before and under others *)
Example C88_example : forall w, (len w <= isize_max)%N ->
  parses rem_decoder ToEos rem_ready rem_dec_new w w /\ dec_idle rem_decoder rem_dec_new = false /\
  refuses_empty U8Decoder (num_dec_new 1) UnexpectedEos /\ refuses_empty U32beDecoder (num_dec_new 4) UnexpectedEos /\
  parses rem_decoder ToEos rem_ready rem_dec_new [] [].
Proof.
  intros w L. split; [|split; [|split; [|split]]].
  - apply rem_decodes; split; auto.
  - reflexivity.
  - split; intros; reflexivity.
  - split; intros; reflexivity.
  - apply rem_decodes; split; auto. cbv; discriminate.
Qed.
Example C88_schedules :
  ending 5 [(2, HUnknown); (3, HExact)] = Some 3 /\ ending 5 [(2, HExact); (3, HUnknown); (0, HExact)] = Some 0 /\
  ending 5 [(9, HUnknown)] = None /\ ends [(2, HUnknown); (3, HExact)].
Proof. repeat split. repeat constructor; discriminate. Qed.
Example C88_runs :
  let run sched := let '(s, rest, r) := feed (collect_decoder rem_decoder) 99 (collect_new rem_dec_new) [x01; x02; x03; x04; x05] sched in
    (snd (dec_finish (collect_decoder rem_decoder) s), r) in
  run [(2, HUnknown); (3, HExact)] = (Ok [[x01; x02; x03; x04; x05]], Ok tt) /\
  run [(2, HUnknown); (3, HUnknown); (0, HExact)] = (Ok [], Ok tt) /\
  snd (decode_exact (collect_decoder rem_decoder) 99 99 (collect_new rem_dec_new) (mkReader [x01; x02; x03; x04; x05] [RdSome 0])) = Ok [].
Proof. repeat split. Qed.
