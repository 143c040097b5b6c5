(** * From the contracts to the loops that a user (or the crate's helpers) runs. *)
From Verif Require Export DecComb2 EncComb.
Set Implicit Arguments.

(** ** feed *)
Lemma hint_truthful_sd : forall h buf rest, (len buf + len rest <= u64_max)%N ->
  truthful SD buf rest (hint_eos h rest).
Proof. intros [| |] buf rest L; unfold truthful; cbn; auto. Qed.
Lemma hint_truthful : forall m h buf rest, h <> HNever -> (len buf + len rest <= u64_max)%N ->
  truthful m buf rest (hint_eos h rest).
Proof. intros m [| |] buf rest H L; unfold truthful; cbn; auto. congruence. Qed.

Lemma split_at : forall {A} k (l : list A), l = firstn k l ++ skipn k l.
Proof. intros; now rewrite firstn_skipn. Qed.

(** Cases of a buffer taken from [w ++ extra]. *)
Lemma take_cases : forall {A} k (w extra : list A),
  (k < length w /\ firstn k (w ++ extra) = firstn k w /\ skipn k (w ++ extra) = skipn k w ++ extra /\
   skipn k w <> [] /\ length (firstn k w) = k) \/
  (length w <= k /\ exists x y, firstn k (w ++ extra) = w ++ x /\ skipn k (w ++ extra) = y /\ extra = x ++ y).
Proof.
  intros A k w extra. destruct (le_lt_dec (length w) k) as [L|L]; [right|left].
  - split; auto. exists (firstn (k - length w) extra), (skipn (k - length w) extra).
    rewrite firstn_app, skipn_app, firstn_all2, skipn_all2 by lia. cbn.
    repeat split; auto. now rewrite firstn_skipn.
  - split; auto. rewrite firstn_app, skipn_app.
    replace (k - length w) with 0 by lia. cbn. rewrite app_nil_r. repeat split; auto.
    + intros E. apply (f_equal (@length A)) in E. rewrite skipn_length in E. cbn in E. lia.
    + rewrite firstn_length; lia.
Qed.

Lemma feed_idle : forall S I (D : Decoder S I) fuel s input sched,
  dec_idle D s = true -> feed D fuel s input sched = (s, input, Ok tt).
Proof. intros S I D fuel s input [|[k h] sched] id; cbn; [|rewrite id]; auto. Qed.

(** Self-delimiting decoders: whatever the schedule, the bytes consumed are those of the item
    that were offered. *)
Lemma feed_sd : forall S I (D : Decoder S I) (P : S -> Prop) fuel sched s w extra i,
  parses D SD P s w i ->
  (len (w ++ extra) <= u64_max)%N -> length (w ++ extra) < fuel ->
  exists s', feed D fuel s (w ++ extra) sched
             = (s', skipn (Nat.min (length w) (offered sched)) (w ++ extra), Ok tt) /\
    parses D SD P s' (skipn (offered sched) w) i /\
    (dec_idle D s' = true <->
     length w <= offered sched /\ (sched <> [] \/ dec_idle D s = true)).
Proof.
  intros S I D P fuel. induction sched as [|[k h] sched IH]; intros s w extra i H L F.
  - cbn. rewrite Nat.min_0_r. exists s; split; auto. split; auto. split.
    + intros id. destruct (parses_idle H id) as (-> & _). cbn; auto.
    + intros [_ [?|?]]; [congruence|auto].
  - destruct (dec_idle D s) eqn:id.
    { destruct (parses_idle H id) as (-> & _). rewrite feed_idle by auto. cbn [length Nat.min skipn app].
      exists s; rewrite skipn_nil. split; auto. split; auto. split; auto. intros; split; [cbn; lia|auto]. }
    cbn [feed offered fold_right fst]. rewrite id.
    assert (T : truthful SD (firstn k (w ++ extra)) (skipn k (w ++ extra))
                         (hint_eos h (skipn k (w ++ extra)))).
    { apply hint_truthful_sd. rewrite <- len_app, firstn_skipn. exact L. }
    destruct (take_cases k w extra) as [(K & E1 & E2 & NE & E3)|(K & x & y & E1 & E2 & E3)].
    + rewrite E2 in T. rewrite E1 in *.
      rewrite (split_at k w) in H.
      assert (F1 : length (firstn k w) < fuel) by (rewrite app_length in F; lia).
      destruct (parses_more H id NE ltac:(congruence) T F1) as (s1 & X1 & id1 & H1).
      rewrite E2, X1, E3, E2.
      destruct (IH s1 (skipn k w) extra i H1) as (s' & Y1 & Y2 & Y3).
      { rewrite !len_app in *. unfold len in *. rewrite skipn_length. lia. }
      { rewrite !app_length in *. rewrite skipn_length; lia. }
      exists s'. fold (offered sched). rewrite Y1.
      rewrite skipn_length in *. split; [|split].
      * do 2 f_equal. rewrite <- E2, skipn_skipn. f_equal. lia.
      * rewrite skipn_skipn in Y2. now rewrite Nat.add_comm.
      * rewrite Y3. split.
        -- intros [A [B|B]]; [|congruence]. split; [lia|left; discriminate].
        -- intros [A B]. split; [lia|]. left. intros ->. cbn in A. lia.
    + rewrite E1, E2 in *. subst extra.
      destruct (parses_last H id ltac:(congruence) T (fuel := fuel)) as (s1 & X1 & id1 & H1).
      { rewrite !app_length in *. lia. }
      rewrite X1. cbn in id1. rewrite feed_idle by auto.
      exists s1. fold (offered sched). split; [|split].
      * do 2 f_equal. f_equal. lia.
      * rewrite skipn_all2 by lia. auto.
      * split; auto. intros _. split; [lia|left; discriminate].
Qed.

Definition no_never (sched : schedule) : Prop := Forall (fun c => snd c <> HNever) sched.

(** Any decoder, if nothing follows the item on the stream. *)
Lemma feed_exact : forall S I (D : Decoder S I) m (P : S -> Prop) fuel sched s w i,
  parses D m P s w i -> no_never sched ->
  length w < fuel ->
  exists s', feed D fuel s w sched = (s', skipn (offered sched) w, Ok tt) /\
    parses D m P s' (skipn (offered sched) w) i /\
    (dec_idle D s' = true -> length w <= offered sched /\ (sched <> [] \/ dec_idle D s = true)) /\
    (m <> ToEos -> length w <= offered sched -> sched <> [] -> dec_idle D s' = true) /\
    (forall k sched1, sched = sched1 ++ [(k, HExact)] -> length w <= offered sched ->
       dec_idle D s' = true).
Proof.
  intros S I D m P fuel. induction sched as [|[k h] sched IH]; intros s w i H NN F.
  - cbn. exists s; split; auto. split; auto. split; [|split].
    + intros id. destruct (parses_idle H id) as (-> & _). cbn; auto.
    + congruence.
    + intros k [|]; discriminate.
  - inversion NN as [|? ? N1 N2]; subst. cbn in N1.
    pose proof (parses_len H) as LW. pose proof isize_u64 as IU.
    destruct (dec_idle D s) eqn:id.
    { destruct (parses_idle H id) as (-> & _). rewrite feed_idle by auto.
      exists s; rewrite skipn_nil. split; auto. split; auto. split; [|split]; auto. intros; split; [cbn; lia|auto]. }
    cbn [feed offered fold_right fst]. rewrite id. fold (offered sched).
    assert (T : truthful m (firstn k w) (skipn k w) (hint_eos h (skipn k w))).
    { apply hint_truthful; auto. rewrite <- len_app, firstn_skipn. lia. }
    destruct (le_lt_dec (length w) k) as [K|K].
    + rewrite firstn_all2, skipn_all2 in * by lia.
      destruct (parses_last (extra := []) H id (fun _ => conj eq_refl eq_refl)
                  (e := hint_eos h []) (rest := []) (fuel := fuel))
        as (s1 & X1 & id1 & H1).
      { now rewrite app_nil_r. } { now rewrite app_nil_r. }
      rewrite app_nil_r in X1. rewrite X1, skipn_all.
      destruct (IH s1 [] i H1 N2 ltac:(cbn; lia)) as (s' & Y1 & Y2 & Y3 & Y4 & Y5).
      exists s'. rewrite skipn_nil in *. rewrite (skipn_all2 w) by lia. split; auto. split; auto.
      split; [|split].
      * intros _. split; [lia|left; discriminate].
      * intros NT _ _. destruct (dec_idle D s1) eqn:ids1.
        -- rewrite feed_idle in Y1 by auto. congruence.
        -- destruct m; cbn in id1; congruence.
      * intros k0 [|c sched1] E0 _; cbn in E0.
        -- injection E0 as -> -> ->. cbn in Y1. injection Y1 as <-. rewrite id1.
           destruct m; reflexivity.
        -- injection E0 as <- E0. eapply Y5; eauto. cbn; lia.
    + assert (NE : skipn k w <> []).
      { intros E. apply (f_equal (@length byte)) in E. rewrite skipn_length in E. cbn in E. lia. }
      assert (L1 : length (firstn k w) = k) by (rewrite firstn_length; lia).
      rewrite (split_at k w) in H.
      assert (T' : truthful m (firstn k w) (skipn k w ++ []) (hint_eos h (skipn k w)))
        by (now rewrite app_nil_r).
      destruct (parses_more H id NE (fun _ => eq_refl) T' (fuel := fuel) ltac:(lia)) as (s1 & X1 & id1 & H1).
      rewrite X1, L1.
      destruct (IH s1 (skipn k w) i H1 N2) as (s' & Y1 & Y2 & Y3 & Y4 & Y5).
      { rewrite skipn_length; lia. }
      exists s'. rewrite Y1. rewrite skipn_skipn, Nat.add_comm in *. rewrite skipn_length in *.
      split; auto. split; auto. split; [|split].
      * intros id'. destruct (Y3 id') as [A [B|B]]; [|congruence]. split; [lia|left; discriminate].
      * intros NT A _. apply Y4; auto; [lia|]. intros ->. cbn in A. lia.
      * intros k0 [|c sched1] E0 A; cbn in E0.
        -- injection E0 as -> -> ->. cbn in A. lia.
        -- injection E0 as <- E0. eapply Y5; eauto. lia.
Qed.

(** ** decode_from_bytes *)
Lemma decode_from_bytes_ok : forall S I (D : Decoder S I) m (P : S -> Prop) fuel s w i,
  parses D m P s w i -> dec_idle D s = false -> length w < fuel ->
  exists s', decode_from_bytes D fuel s w = (s', Ok i) /\ P s'.
Proof.
  intros S I D m P fuel s w i H id F.
  pose proof (parses_len H) as LW. pose proof isize_u64 as IU.
  destruct (parses_last (extra := []) H id (fun _ => conj eq_refl eq_refl)
              (e := eos_new true) (rest := []) (fuel := fuel)) as (s1 & X1 & id1 & H1).
  { right; left. split; auto. rewrite app_nil_r. cbn. lia. } { now rewrite app_nil_r. }
  rewrite app_nil_r in X1. unfold decode_from_bytes. rewrite X1, Nat.eqb_refl.
  assert (id1' : dec_idle D s1 = true) by (rewrite id1; destruct m; reflexivity).
  destruct (parses_idle H1 id1') as (_ & _ & s' & -> & PP). eauto.
Qed.
Lemma decode_from_bytes_trailing : forall S I (D : Decoder S I) (P : S -> Prop) fuel s w x extra i,
  parses D SD P s w i -> dec_idle D s = false -> length (w ++ x :: extra) < fuel ->
  (len (w ++ x :: extra) <= u64_max)%N ->
  exists s', decode_from_bytes D fuel s (w ++ x :: extra) = (s', Err InvalidInput).
Proof.
  intros S I D P fuel s w x extra i H id F L.
  destruct (parses_last (extra := x :: extra) H id ltac:(congruence)
              (e := eos_new true) (rest := []) (fuel := fuel)) as (s1 & X1 & id1 & H1); auto.
  { right; left. split; auto. cbn. rewrite N.add_0_r. exact L. }
  unfold decode_from_bytes. rewrite X1.
  replace (_ =? _) with false by (rewrite app_length; cbn; lia). eauto.
Qed.

(** ** decode_exact *)
Definition gives (p : RdPlan) : Prop := match p with RdSome _ => True | _ => False end.
Lemma rd_read_gives : forall r k, Forall gives (rd_plan r) -> 0 < k ->
  exists j plan', rd_read r k = (mkReader (skipn j (rd_data r)) plan', inl (firstn j (rd_data r))) /\
    0 < j <= k /\ Forall gives plan'.
Proof.
  intros [d [|[n| |] p]] k G K; cbn in *.
  - exists k, []. auto.
  - inversion G; subst. exists (Nat.min k (S n)), p. repeat split; auto; lia.
  - inversion G; contradiction.
  - inversion G; contradiction.
Qed.

Lemma decode_exact_ok : forall S I (D : Decoder S I) m (P : S -> Prop) ifuel fuel s w extra i r,
  parses D m P s w i -> dec_idle D s = false -> (m <> SD -> extra = []) ->
  rd_data r = w ++ extra -> Forall gives (rd_plan r) ->
  length w + 2 <= fuel -> length w < ifuel ->
  exists s' r', decode_exact D fuel ifuel s r = (s', r', Ok i) /\ P s' /\ rd_data r' = extra.
Proof.
  intros S I D m P ifuel.
  assert (A : forall fuel s w extra i r,
    parses D m P s w i -> dec_idle D s = false -> (m <> SD -> extra = []) ->
    rd_data r = w ++ extra -> Forall gives (rd_plan r) ->
    (w = [] -> m = ToEos -> 1 <= fuel) -> 
    length w + 2 <= fuel \/ (w = [] /\ m = ToEos /\ 1 <= fuel) -> length w < ifuel ->
    exists s' r', decode_exact D fuel ifuel s r = (s', r', Ok i) /\ P s' /\ rd_data r' = extra);
  [|intros; eapply A; eauto; lia].
  induction fuel as [|fuel IH]; intros s w extra i r H id EX RD G F0 F IF; [lia|].
  cbn [decode_exact].
  pose proof (parses_req H id) as Q.
  pose proof (parses_len H) as LW. pose proof isize_u64 as IU.
  assert (Q' : exists q, dec_req D s = Ok q /\
     ((exact_ask q = 0 /\ w = [] /\ m <> ToEos) \/
      (0 < exact_ask q /\ m = ToEos) \/ (0 < exact_ask q <= length w /\ m <> ToEos))).
  { destruct m; cbn in Q; destruct (dec_req D s) as [[n| |]| | |]; try tauto; eexists; split; eauto; cbn [exact_ask].
    - destruct Q as [Q1 Q2]. pose proof (eq_refl : N.of_nat io_buf_size = 1024%N) as IO.
      destruct (N.ltb_spec n (N.of_nat io_buf_size)).
      + destruct (N.eq_dec n 0) as [->|]; [left; repeat split; auto; discriminate|].
        right; right. unfold len in *. split; [lia|discriminate].
      + right; right. unfold len in *. split; [lia|discriminate].
    - right; right. split; [|discriminate]. pose proof (length_nonnil Q). lia.
    - destruct Q as [Q1 Q2]. pose proof (eq_refl : N.of_nat io_buf_size = 1024%N) as IO.
      destruct (N.ltb_spec n (N.of_nat io_buf_size)).
      + destruct (N.eq_dec n 0) as [->|]; [left; repeat split; auto; discriminate|].
        right; right. unfold len in *. split; [lia|discriminate].
      + right; right. unfold len in *. split; [lia|discriminate].
    - right; right. split; [|discriminate]. pose proof (length_nonnil Q). lia.
    - right; left. split; auto. pose proof (eq_refl : N.of_nat io_buf_size = 1024%N) as IO.
      destruct (N.ltb_spec n (N.of_nat io_buf_size)); lia.
    - right; left. split; auto. unfold io_buf_size; lia. }
  clear Q. destruct Q' as (q & -> & Q). cbn zeta.
  destruct Q as [(Q1 & -> & NT)|Q].
  { (* nothing is needed *)
    rewrite Q1. cbn [Nat.eqb length].
    destruct (parses_last (extra := []) (rest := []) (e := eos_new false) (fuel := ifuel) H id (fun _ => conj eq_refl eq_refl))
      as (s1 & X1 & id1 & H1); [left; reflexivity|auto|].
    cbn [app] in X1. rewrite X1. cbn [Nat.eqb length].
    assert (id1' : dec_idle D s1 = true) by (rewrite id1; destruct m; cbn; congruence).
    rewrite id1'. destruct (parses_idle H1 id1') as (_ & _ & s' & -> & PP).
    exists s', r. auto. }
  assert (Qp : 0 < exact_ask q) by (destruct Q; lia).
  replace (exact_ask q =? 0) with false by lia.
  destruct (rd_read_gives r G Qp) as (j & plan' & -> & J & G').
  rewrite RD.
  destruct (le_lt_dec (length w) j) as [K|K].
  - (* the read covers the rest of the item *)
    assert (E : firstn j (w ++ extra) = w /\ skipn j (w ++ extra) = extra).
    { destruct Q as [[_ MT]|[Qa _]].
      - rewrite EX by congruence. rewrite app_nil_r. split; [apply firstn_all2|apply skipn_all2]; lia.
      - assert (j = length w) as -> by lia. split; [apply firstn_app_exact|apply skipn_app_exact]. }
    destruct E as [-> ->].
    set (e := eos_new (length w =? 0)).
    assert (T : truthful m (w ++ []) (if length w =? 0 then [] else extra) e).
    { unfold e. destruct (length w =? 0) eqn:Z; [|left; reflexivity].
      right; left; split; auto. rewrite app_nil_r. cbn. lia. }
    assert (EE : m <> SD -> (nil : list byte) = [] /\ (if length w =? 0 then [] else extra) = []).
    { intros NS. split; auto. destruct (length w =? 0); auto. }
    destruct (parses_last (extra := []) H id EE T (fuel := ifuel)) as (s1 & X1 & id1 & H1).
    { now rewrite app_nil_r. }
    rewrite app_nil_r in X1. fold e. rewrite X1, Nat.eqb_refl.
    destruct (dec_idle D s1) eqn:ids1.
    + destruct (parses_idle H1 ids1) as (_ & _ & s2 & X2 & PP). rewrite X2. eexists _, _; split; [reflexivity|]. auto.
    + (* only for [ToEos], one more round *)
      assert (MT : m = ToEos) by (destruct m; cbn in id1; congruence).
      rewrite MT in id1. cbn in id1. unfold e in id1.
      assert (WN : w <> []) by (intros ->; discriminate).
      pose proof (length_nonnil WN). assert (1 <= fuel) by (destruct F as [|[? _]]; [lia|congruence]).
      eapply IH with (w := []) (extra := extra); eauto; cbn; try lia.
  - pose proof (take_cases j w extra) as [(_ & E1 & E2 & NE & E3)|(K' & _)]; [|lia].
    rewrite E1, E2, E3.
    replace (j =? 0) with false by lia. cbn [eos_new].
    assert (F' : length w + 2 <= Datatypes.S fuel).
    { destruct F as [|[-> _]]; [lia|]. cbn in K. lia. }
    clear F. rewrite (split_at j w) in H.
    assert (T : truthful m (firstn j w) (skipn j w ++ extra) Unknown) by (left; reflexivity).
    destruct (parses_more H id NE EX T (fuel := ifuel) ltac:(lia)) as (s1 & X1 & id1 & H1).
    rewrite X1, E3, Nat.eqb_refl, id1.
    eapply IH with (w := skipn j w) (extra := extra); eauto; try congruence; rewrite skipn_length; lia.
Qed.

(** ** drain *)
Lemma drain_idle : forall S I (E : Encoder S I) fuel s out bufs,
  enc_idle E s = true -> drain E fuel s out bufs = (s, out, Ok tt).
Proof. intros S I E fuel s out [|b bufs] id; cbn; [|rewrite id]; auto. Qed.

Lemma drain_ok : forall S I (E : Encoder S I) f0 (P : S -> Prop) fuel bufs s w out,
  emits E f0 P s w -> f0 + room bufs < fuel ->
  exists s', drain E fuel s out bufs = (s', out ++ firstn (room bufs) w, Ok tt) /\
    emits E f0 P s' (skipn (room bufs) w) /\
    (enc_idle E s' = true <-> length w <= room bufs /\ (bufs <> [] \/ enc_idle E s = true)).
Proof.
  intros S I E f0 P fuel. induction bufs as [|b bufs IH]; intros s w out H F.
  - cbn. exists s. rewrite app_nil_r. split; auto. split; auto. split.
    + intros id. destruct (emits_idle H id) as (-> & _). cbn; auto.
    + intros [_ [?|?]]; [congruence|auto].
  - destruct (enc_idle E s) eqn:id.
    { destruct (emits_idle H id) as (-> & _). rewrite drain_idle by auto.
      rewrite firstn_nil, skipn_nil, app_nil_r. exists s. split; auto. split; auto.
      split; auto. intros; split; [cbn; lia|auto]. }
    cbn [drain]. rewrite id. cbn [room fold_right] in *. fold (room bufs) in *.
    destruct (le_lt_dec (length w) (length b)) as [K|K].
    + destruct (emits_last (eos_new false) H id K (fuel := fuel) ltac:(lia)) as (s1 & X1 & id1 & H1).
      rewrite X1, firstn_app_exact, drain_idle by auto.
      exists s1. rewrite firstn_all2, skipn_all2 by lia. split; auto. split; auto.
      split; auto. intros _. split; [lia|left; discriminate].
    + assert (NE : skipn (length b) w <> []).
      { intros X. apply (f_equal (@length byte)) in X. rewrite skipn_length in X. cbn in X. lia. }
      rewrite (split_at (length b) w) in H.
      destruct (emits_more H id (e := eos_new false) (buf := b) (fuel := fuel)
                  ltac:(rewrite firstn_length; lia) NE eq_refl ltac:(lia)) as (s1 & X1 & id1 & H1).
      rewrite X1. rewrite (firstn_all2 (firstn _ _)) by (rewrite firstn_length; lia).
      destruct (IH s1 (skipn (length b) w) (out ++ firstn (length b) w) H1 ltac:(lia))
        as (s' & Y1 & Y2 & Y3).
      exists s'. rewrite Y1. rewrite skipn_skipn, Nat.add_comm in Y2. rewrite skipn_length in Y3.
      split; [|split].
      * do 2 f_equal. rewrite <- app_assoc. f_equal.
        rewrite <- (firstn_skipn (length b) w) at 3. rewrite firstn_app.
        rewrite (firstn_all2 (firstn _ _)) by (rewrite firstn_length; lia).
        f_equal. f_equal. rewrite firstn_length. lia.
      * auto.
      * rewrite Y3. split.
        -- intros [A [B|B]]; [|congruence]. split; [lia|left; discriminate].
        -- intros [A B]. split; [lia|]. left. intros ->. cbn in A. lia.
Qed.

(** ** encode_all *)
Definition takes (p : WrPlan) : Prop :=
  match p with WrSome _ | WrErr IoInterrupted => True | _ => False end.
Lemma wr_write_all_loop_ok : forall plan fuel b d, Forall takes plan -> length plan < fuel ->
  exists plan', wr_write_all_loop fuel (mkWriter d plan) b = (mkWriter (d ++ b) plan', Ok tt) /\
                Forall takes plan'.
Proof.
  induction plan as [|p plan IH]; intros fuel b d G F.
  - destruct b as [|x b]; [destruct fuel; cbn; rewrite app_nil_r; eauto|].
    destruct fuel as [|fuel]; [lia|]. cbn [wr_write_all_loop wr_write wr_plan wr_data length].
    rewrite skipn_all2 by (cbn; lia). destruct fuel; cbn; eauto.
  - destruct b as [|x b]; [destruct fuel; cbn; rewrite app_nil_r; eauto|].
    destruct fuel as [|fuel]; [lia|]. inversion G as [|? ? G1 G2]; subst. cbn in F.
    cbn [wr_write_all_loop wr_write wr_plan wr_data]. set (bb := x :: b).
    destruct p as [n| |[]]; try contradiction.
    + cbn [wr_write wr_plan wr_data].
      destruct (Nat.min (length bb) (Datatypes.S n)) as [|k] eqn:K; [cbn in K; lia|].
      destruct (IH fuel (skipn (Datatypes.S k) bb) (d ++ firstn (Datatypes.S k) bb) G2 ltac:(lia)) as (plan' & -> & G').
      exists plan'. rewrite <- app_assoc, firstn_skipn. auto.
    + cbn [wr_write wr_plan wr_data].
      destruct (IH fuel bb d G2 ltac:(lia)) as (plan' & -> & G'). eauto.
Qed.
Lemma wr_write_all_ok : forall w b, Forall takes (wr_plan w) ->
  exists plan', wr_write_all w b = (mkWriter (wr_data w ++ b) plan', Ok tt) /\ Forall takes plan'.
Proof. intros [d p] b G. apply wr_write_all_loop_ok; auto. Qed.

Lemma encode_all_loop_ok : forall S I (E : Encoder S I) f0 (P : S -> Prop) ifuel fuel s w buf wr,
  emits E f0 P s w -> Forall takes (wr_plan wr) -> 0 < length buf ->
  length w + 1 <= fuel -> f0 + length buf < ifuel ->
  exists s' plan', encode_all_loop E fuel ifuel s buf wr
      = (s', mkWriter (wr_data wr ++ w) plan', Ok tt) /\ P s' /\ enc_idle E s' = true.
Proof.
  intros S I E f0 P ifuel. induction fuel as [|fuel IH]; intros s w buf wr H G B F IF; [lia|].
  cbn [encode_all_loop].
  destruct (enc_idle E s) eqn:id.
  { destruct (emits_idle H id) as (-> & PP). destruct wr as [d p]. cbn. rewrite app_nil_r. eauto 6. }
  destruct (le_lt_dec (length w) (length buf)) as [K|K].
  - destruct (emits_last (eos_new false) H id K (fuel := ifuel) ltac:(lia)) as (s1 & X1 & id1 & H1).
    rewrite X1. replace (length w <=? _) with true by (rewrite app_length; lia).
    rewrite firstn_app_exact. destruct (wr_write_all_ok wr w G) as (plan' & -> & G').
    rewrite id1. cbn [negb andb].
    destruct (emits_idle H1 id1) as (_ & PP).
    destruct fuel; cbn [encode_all_loop]; rewrite id1; eauto 6.
  - assert (NE : skipn (length buf) w <> []).
    { intros X. apply (f_equal (@length byte)) in X. rewrite skipn_length in X. cbn in X. lia. }
    rewrite (split_at (length buf) w) in H.
    destruct (emits_more H id (e := eos_new false) (buf := buf) (fuel := ifuel)
                ltac:(rewrite firstn_length; lia) NE eq_refl ltac:(lia)) as (s1 & X1 & id1 & H1).
    rewrite X1. replace (length buf <=? _) with true by (rewrite firstn_length; lia).
    rewrite (firstn_all2 (firstn _ _)) by (rewrite firstn_length; lia).
    destruct (wr_write_all_ok wr (firstn (length buf) w) G) as (plan' & -> & G').
    rewrite id1. replace (length buf =? 0) with false by lia. cbn [negb andb].
    destruct (IH s1 (skipn (length buf) w) (firstn (length buf) w)
                 (mkWriter (wr_data wr ++ firstn (length buf) w) plan') H1 G')
      as (s' & plan2 & Y1 & Y2 & Y3); try (rewrite ?firstn_length, ?skipn_length; lia).
    exists s', plan2. rewrite Y1. cbn. rewrite <- app_assoc, firstn_skipn. auto.
Qed.
Lemma encode_all_ok : forall S I (E : Encoder S I) f0 (P : S -> Prop) fuel s w wr,
  emits E f0 P s w -> Forall takes (wr_plan wr) ->
  f0 + length w + io_buf_size < fuel ->
  exists s' plan', encode_all E fuel s wr = (s', mkWriter (wr_data wr ++ w) plan', Ok tt) /\
                   P s' /\ enc_idle E s' = true.
Proof.
  intros. unfold encode_all. eapply encode_all_loop_ok; eauto; rewrite ?repeat_length;
    unfold io_buf_size in *; lia.
Qed.

(** ** encode_into_bytes *)
Lemma encode_into_bytes_ok : forall S I (E : Encoder S I) f0 (P : S -> Prop) fuel s i w,
  rests E P -> accepts E f0 P s i w -> f0 + length w + io_buf_size < fuel ->
  exists s', encode_into_bytes E fuel s i = (s', Ok w) /\ P s'.
Proof.
  intros S I E f0 P fuel s i w RS AC F. unfold encode_into_bytes.
  destruct (AC fuel ltac:(lia)) as (s1 & X1 & H). rewrite X1.
  pose proof (emits_len H) as L.
  destruct (emits_req H) as [->|[-> id]].
  - replace (len w <=? isize_max)%N with true by lia. rewrite len_length.
    destruct (enc_idle E s1) eqn:id.
    + destruct (emits_idle H id) as (-> & PP). destruct (RS s1 PP) as (_ & _ & A). cbn [length repeat].
      destruct (A fuel [] (eos_new true) ltac:(lia)) as (s2 & -> & P2).
      destruct (RS s2 P2) as (-> & _). eauto.
    + destruct (emits_last (eos_new true) H id (buf := repeat x00 (length w)) (fuel := fuel))
        as (s2 & -> & id2 & H2); try (rewrite repeat_length; lia).
      rewrite id2. rewrite skipn_all2 by (rewrite repeat_length; lia). rewrite app_nil_r.
      destruct (emits_idle H2 id2) as (_ & PP). eauto.
  - destruct (encode_all_ok (fuel := fuel) (mkWriter [] []) H) as (s2 & plan' & -> & PP & _); cbn; auto.
    replace (len w <=? isize_max)%N with true by lia. eauto.
Qed.
