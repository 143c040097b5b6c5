(** * From the contracts to sessions: proofs. *)
From Coq Require Import Lia ZifyBool ZifyNat ZifyN.
From Verif Require Import Session Drive SoundProofs.
From Verif Require Export UniverseProofs Sound.
Set Implicit Arguments.

Lemma announced_nil : forall n sched, n = 0 -> (exists k h, In (k, h) sched /\ h = HExact) ->
  announced n sched = true.
Proof.
  induction sched as [|[k h] sched IH]; intros -> (k0 & h0 & H & ->); cbn in *; [tauto|].
  destruct H as [H|H]; [injection H as -> ->; reflexivity|].
  rewrite IH; eauto. apply orb_true_r.
Qed.

(** A decoder that runs to the end of the stream is idle iff the end was announced. *)
Lemma feed_eos : forall S I (D : Decoder S I) (P : S -> Prop) fuel sched s w i,
  parses D ToEos P s w i -> dec_idle D s = false -> ends sched -> length w < fuel ->
  exists s', feed D fuel s w sched = (s', skipn (offered sched) w, Ok tt) /\
    parses D ToEos P s' (skipn (offered sched) w) i /\
    dec_idle D s' = announced (length w) sched.
Proof.
  intros S I D P fuel. induction sched as [|[k h] sched IH]; intros s w i H id NN F.
  - cbn. eauto.
  - inversion NN as [|? ? N1 N2]; subst. cbn in N1.
    pose proof (parses_len H) as LW. pose proof isize_u64 as IU.
    cbn [feed offered fold_right fst announced]. rewrite id. fold (offered sched).
    assert (T : truthful ToEos (firstn k w) (skipn k w) (hint_eos h (skipn k w))).
    { apply hint_truthful; auto. rewrite <- len_app, firstn_skipn. lia. }
    destruct (le_lt_dec (length w) k) as [K|K].
    + rewrite firstn_all2, skipn_all2 in * by lia.
      destruct (parses_last (extra := []) H id (fun _ => conj eq_refl eq_refl)
                  (e := hint_eos h []) (rest := []) (fuel := fuel))
        as (s1 & X1 & id1 & H1).
      { now rewrite app_nil_r. } { now rewrite app_nil_r. }
      rewrite app_nil_r in X1. rewrite X1, skipn_all. cbn in id1.
      rewrite (skipn_all2 w) by lia.
      destruct (is_reached (hint_eos h [])) eqn:R.
      * rewrite feed_idle by auto. exists s1. rewrite id1. do 2 (split; auto).
        destruct h; cbn in R; try discriminate. replace (length w <=? k) with true by lia. auto.
      * destruct (IH s1 [] i H1 id1 N2 ltac:(cbn; lia)) as (s' & Y1 & Y2 & Y3).
        rewrite skipn_nil in *. exists s'. do 2 (split; auto). rewrite Y3.
        replace (length w - k) with 0 by lia. destruct h; cbn in R; try discriminate; auto.
    + assert (NE : skipn k w <> []).
      { intros E. apply (f_equal (@length byte)) in E. rewrite skipn_length in E. cbn in E. lia. }
      assert (L1 : length (firstn k w) = k) by (rewrite firstn_length; lia).
      rewrite (split_at k w) in H.
      assert (T' : truthful ToEos (firstn k w) (skipn k w ++ []) (hint_eos h (skipn k w)))
        by (now rewrite app_nil_r).
      destruct (parses_more H id NE (fun _ => eq_refl) T' (fuel := fuel) ltac:(lia)) as (s1 & X1 & id1 & H1).
      rewrite X1, L1.
      destruct (IH s1 (skipn k w) i H1 id1 N2) as (s' & Y1 & Y2 & Y3).
      { rewrite skipn_length; lia. }
      exists s'. rewrite Y1. rewrite skipn_skipn, Nat.add_comm in *. rewrite skipn_length in *.
      do 2 (split; auto). rewrite Y3. replace (length w <=? k) with false by lia.
      destruct h; auto.
Qed.

(** ** Many items through one decoder *)
Lemma decode_items_ok : forall S I (D : Decoder S I) (F : format I) (P : S -> Prop) fuel,
  decodes D SD F P P -> (forall s, P s -> dec_idle D s = false) ->
  forall sched s w i ws is extra items,
  parses D SD P s w i -> dec_idle D s = false -> Forall2 F ws is ->
  (len (w ++ concat ws ++ extra) <= u64_max)%N -> length (w ++ concat ws ++ extra) < fuel ->
  exists k s' c rest,
    decode_items D fuel (length (i :: is)) s (w ++ concat ws ++ extra) items sched
      = (s', rest, items ++ firstn k (i :: is), Ok tt) /\
    w ++ concat ws ++ extra = c ++ rest /\
    k <= length (i :: is) /\
    length (concat (firstn k (w :: ws))) <= length c <= length (concat (firstn (k + 1) (w :: ws))) /\
    (length (w ++ concat ws) + length (i :: is) <= pushes sched ->
       k = length (i :: is) /\ rest = extra /\ P s').
Proof.
  intros S I D F P fuel HD HB.
  induction sched as [|[k h] sched IH]; intros s w i ws is extra items H id HF L FU.
  - exists 0, s, [], (w ++ concat ws ++ extra). cbn. rewrite app_nil_r. split; auto. split; auto.
    split; [lia|]. split; [lia|]. rewrite app_length. lia.
  - cbn [decode_items length pushes filter fst].
    pose proof (split_at k (w ++ concat ws ++ extra)) as SP.
    assert (T : truthful SD (firstn k (w ++ concat ws ++ extra)) (skipn k (w ++ concat ws ++ extra))
                  (hint_eos h (skipn k (w ++ concat ws ++ extra)))).
    { apply hint_truthful_sd. rewrite <- len_app, firstn_skipn. exact L. }
    destruct (take_cases k w (concat ws ++ extra)) as [(K & E1 & E2 & NE & E3)|(K & x & y & E1 & E2 & E3)].
    + rewrite E2 in T. rewrite E1 in *. rewrite (split_at k w) in H.
      assert (F1 : length (firstn k w) < fuel) by (rewrite app_length in FU; lia).
      destruct (parses_more H id NE ltac:(congruence) T F1) as (s1 & X1 & id1 & H1).
      rewrite E2, X1, id1, E3, E2.
      destruct (IH s1 (skipn k w) i ws is extra items H1 id1 HF) as (j & s' & c & rest & Y1 & Y2 & Y3 & Y4 & Y5).
      { rewrite !len_app in *. unfold len in *. rewrite skipn_length. lia. }
      { rewrite !app_length in *. rewrite skipn_length; lia. }
      cbn [length] in Y1. rewrite Y1.
      exists j, s', (firstn k w ++ c), rest. split; auto.
      split; [rewrite <- app_assoc, <- Y2, (app_assoc (firstn k w)), firstn_skipn; auto|]. split; auto.
      split.
      * rewrite app_length, E3. destruct j as [|j]; cbn [firstn concat Nat.add] in *; rewrite ?app_length, ?skipn_length in *;
          cbn [length] in *; rewrite ?app_length, ?skipn_length in *; lia.
      * intros HP. apply Y5. unfold pushes. rewrite !app_length, skipn_length in *.
        destruct (k =? 0) eqn:Z; cbn [negb length] in HP |- *; lia.
    + rewrite E1, E2 in *.
      destruct (parses_last H id ltac:(congruence) T (fuel := fuel)) as (s1 & X1 & id1 & H1).
      { apply (f_equal (@length byte)) in E3. rewrite !app_length in *. lia. }
      rewrite X1. cbn in id1. rewrite id1.
      destruct (parses_idle H1 id1) as (_ & _ & s2 & X2 & P2). rewrite X2.
      rewrite skipn_app_exact.
      destruct HF as [|w1 i1 ws is F1 HF].
      * exists 1, s2, w, ([] ++ extra). cbn [length decode_items firstn concat Nat.add].
        destruct sched; (split; [auto|]); (split; [auto|]); (split; [lia|]);
          cbn [firstn concat length]; rewrite ?app_nil_r; auto.
      * cbn [concat]. rewrite <- app_assoc. 
        destruct (IH s2 w1 i1 ws is extra (items ++ [i]) (HD _ _ _ P2 F1) (HB _ P2) HF)
          as (j & s' & c & rest & Y1 & Y2 & Y3 & Y4 & Y5).
        { cbn [concat] in L. rewrite !len_app in *. lia. }
        { cbn [concat] in FU. rewrite !app_length in *. lia. }
        rewrite Y1. exists (Datatypes.S j), s', (w ++ c), rest.
        split; [cbn [firstn]; now rewrite <- app_assoc|].
        split; [now rewrite <- app_assoc, <- Y2|].
        split; [cbn in *; lia|]. split.
        -- rewrite app_length. change (Datatypes.S j + 1) with (Datatypes.S (j + 1)).
           cbn [firstn concat]. rewrite !app_length. lia.
        -- intros HP. destruct Y5 as (-> & -> & PP).
           { unfold pushes. rewrite !app_length in *. cbn [length] in *.
             destruct (k =? 0); cbn [negb length] in HP; lia. }
           cbn. auto.
Qed.

(** ** Many items through one encoder *)
Lemma encode_items_ok : forall S I (E : Encoder S I) (F : format I) (P : S -> Prop),
  encodes E F P P -> rests E P ->
  forall ws jobs, Forall2 F ws (map fst jobs) ->
  Forall2 (fun w job => snd job <> [] /\ length w <= room (snd job)) ws jobs ->
  exists f0, forall fuel s out, P s -> f0 < fuel ->
    exists s', encode_items E fuel s out jobs = (s', out ++ concat ws, Ok tt) /\ P s' /\ enc_idle E s' = true.
Proof.
  intros S I E F P HE HR. induction ws as [|w ws IH]; intros [|[i bufs] jobs] HF HB;
    inversion HF; inversion HB; subst.
  - exists 0. intros. cbn. rewrite app_nil_r. destruct (HR s) as (? & _); eauto.
  - destruct (IH jobs) as (f0 & K); auto. destruct (HE w i) as (f1 & A); auto.
    exists (f0 + f1 + room bufs). intros fuel s out PS FU. cbn in *.
    destruct (A s PS fuel ltac:(lia)) as (s1 & -> & EM).
    destruct (drain_ok (fuel := fuel) bufs out EM ltac:(lia)) as (s2 & -> & EM2 & ID).
    match goal with HH : bufs <> [] /\ _ |- _ => destruct HH as [BN BR] end. change (length w <= room bufs) in BR.
    rewrite (proj2 ID) by auto.
    rewrite firstn_all2 by lia. rewrite skipn_all2 in EM2 by lia.
    destruct (emits_idle EM2 (proj2 ID (conj BR (or_introl BN)))) as (_ & P2).
    destruct (K fuel s2 (out ++ w) P2 ltac:(lia)) as (s3 & -> & R).
    exists s3. rewrite <- app_assoc. auto.
Qed.

(** ** encode_all on a writer that may fail *)
Lemma wr_write_all_loop_prefix : forall fuel b d plan,
  exists p q plan' r, wr_write_all_loop fuel (mkWriter d plan) b = (mkWriter (d ++ p) plan', r) /\
    b = p ++ q /\ (r = Ok tt -> q = []) /\
    (length plan < fuel -> r <> OutOfFuel) /\ r <> Panic.
Proof.
  induction fuel as [|fuel IH]; intros b d plan.
  - destruct b as [|x b]; cbn.
    + exists [], [], plan, (Ok tt). rewrite app_nil_r. repeat split; auto; discriminate.
    + exists [], (x :: b), plan, OutOfFuel. rewrite app_nil_r. repeat split; auto; try discriminate. intros; lia.
  - destruct b as [|x b].
    { cbn. exists [], [], plan, (Ok tt). rewrite app_nil_r. repeat split; auto; discriminate. }
    set (bb := x :: b). cbn [wr_write_all_loop wr_write wr_plan wr_data].
    assert (STOP : forall plan' k, exists p q plan'' r,
      (mkWriter d plan', @Err unit k) = (mkWriter (d ++ p) plan'', r) /\ bb = p ++ q /\
      (r = Ok tt -> q = []) /\ (length plan < Datatypes.S fuel -> r <> OutOfFuel) /\ r <> Panic).
    { intros plan' k. exists [], bb, plan', (Err k). rewrite app_nil_r. repeat split; auto; discriminate. }
    destruct plan as [|p plan].
    { cbn. change (x :: b) with bb. rewrite skipn_all2 by (cbn; lia).
      exists bb, [], [], (Ok tt). destruct fuel; cbn; rewrite app_nil_r; repeat split; auto; discriminate. }
    destruct p as [n| |e].
    + unfold wr_write; cbn [wr_plan wr_data].
      destruct (Nat.min (length bb) (Datatypes.S n)) as [|k] eqn:K; [cbn in K; lia|].
      destruct (IH (skipn (Datatypes.S k) bb) (d ++ firstn (Datatypes.S k) bb) plan)
        as (p & q & plan' & r & X & E1 & E2 & E3 & E4).
      exists (firstn (Datatypes.S k) bb ++ p), q, plan', r. rewrite X, <- app_assoc.
      split; auto. split; [rewrite <- app_assoc, <- E1, firstn_skipn; auto|]. cbn in *.
      repeat split; auto. intros; apply E3; lia.
    + cbn. apply STOP.
    + unfold wr_write; cbn [wr_plan wr_data]. destruct e; try apply STOP.
      destruct (IH bb d plan) as (p & q & plan' & r & X & E1 & E2 & E3 & E4).
      exists p, q, plan', r. cbn in *. repeat split; auto. intros; apply E3; lia.
Qed.
Lemma wr_write_all_prefix : forall w b,
  exists p q plan' r, wr_write_all w b = (mkWriter (wr_data w ++ p) plan', r) /\
    b = p ++ q /\ (r = Ok tt -> q = []) /\ r <> OutOfFuel /\ r <> Panic.
Proof.
  intros [d plan] b. destruct (wr_write_all_loop_prefix (Datatypes.S (length plan)) b d plan)
    as (p & q & plan' & r & X & E1 & E2 & E3 & E4).
  exists p, q, plan', r. repeat split; auto.
Qed.

Lemma encode_all_prefix : forall S I (E : Encoder S I) f0 (P : S -> Prop) ifuel fuel s w buf wr,
  emits E f0 P s w -> 0 < length buf ->
  length w + 1 <= fuel -> f0 + length buf < ifuel ->
  exists s' p q plan' r, encode_all_loop E fuel ifuel s buf wr
      = (s', mkWriter (wr_data wr ++ p) plan', r) /\ w = p ++ q /\
     (r = Ok tt /\ q = [] /\ P s' /\ enc_idle E s' = true \/ exists k, r = Err k).
Proof.
  intros S I E f0 P ifuel. induction fuel as [|fuel IH]; intros s w buf wr H B F IF; [lia|].
  cbn [encode_all_loop].
  destruct (enc_idle E s) eqn:id.
  { destruct (emits_idle H id) as (-> & PP). destruct wr as [d p]. cbn.
    exists s, [], [], p, (Ok tt). rewrite app_nil_r. eauto 8. }
  destruct (le_lt_dec (length w) (length buf)) as [K|K].
  - destruct (emits_last (eos_new false) H id K (fuel := ifuel) ltac:(lia)) as (s1 & X1 & id1 & H1).
    rewrite X1. replace (length w <=? _) with true by (rewrite app_length; lia).
    rewrite firstn_app_exact.
    destruct (wr_write_all_prefix wr w) as (p & q & plan' & r & -> & E1 & E2 & E3 & E4).
    destruct r as [[]|k| |]; try congruence; cbn [rcast rbind].
    + rewrite id1. cbn [negb andb]. destruct (emits_idle H1 id1) as (_ & PP).
      exists s1, p, q, plan', (Ok tt).
      destruct fuel; cbn [encode_all_loop]; rewrite id1; eauto 8.
    + exists s1, p, q, plan', (Err k). eauto 6.
  - assert (NE : skipn (length buf) w <> []).
    { intros X. apply (f_equal (@length byte)) in X. rewrite skipn_length in X. cbn in X. lia. }
    pose proof H as H0. rewrite (split_at (length buf) w) in H.
    destruct (emits_more H id (e := eos_new false) (buf := buf) (fuel := ifuel)
                ltac:(rewrite firstn_length; lia) NE eq_refl ltac:(lia)) as (s1 & X1 & id1 & H1).
    rewrite X1. replace (length buf <=? _) with true by (rewrite firstn_length; lia).
    rewrite (firstn_all2 (firstn _ _)) by (rewrite firstn_length; lia).
    destruct (wr_write_all_prefix wr (firstn (length buf) w)) as (p & q & plan' & r & -> & E1 & E2 & E3 & E4).
    destruct r as [[]|k| |]; try congruence; cbn [rcast rbind].
    + rewrite id1. replace (length buf =? 0) with false by lia. cbn [negb andb].
      destruct (IH s1 (skipn (length buf) w) (firstn (length buf) w)
                 (mkWriter (wr_data wr ++ p) plan') H1)
        as (s' & p2 & q2 & plan2 & r2 & Y1 & Y2 & Y3); try (rewrite ?firstn_length, ?skipn_length; lia).
      rewrite (E2 eq_refl), app_nil_r in E1.
      exists s', (p ++ p2), q2, plan2, r2. rewrite Y1. cbn. rewrite <- !app_assoc. split; auto.
      split; auto. rewrite <- Y2, <- E1, firstn_skipn. auto.
    + exists s1, p, (q ++ skipn (length buf) w), plan', (Err k). split; auto. split; [|eauto].
      rewrite app_assoc, <- E1, firstn_skipn. auto.
Qed.
