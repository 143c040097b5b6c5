(** * Proofs for C95: [requiring_bytes] over several calls *)
From Coq Require Import Lia ZifyBool ZifyNat ZifyN.
From Verif Require Import EagerProofs EagerFull.
Set Implicit Arguments.
Local Arguments Nat.eqb : simpl never.
Local Arguments Nat.ltb : simpl never.
Local Arguments N.eqb : simpl never.

(** What is still missing, as a number: it is what [requiring_bytes] says where that says a
    number, and at least [K], which is arbitrary, where that says "infinitely many". *)
Definition told (K : nat) (q : res ByteCount) (k : nat) : Prop :=
  match q with Ok (Finite b) => N.of_nat k = b | Ok Unknown => k = 0 | Ok Infinite => K <= k | _ => True end.
Definition grad (K : nat) {S I} (D : Decoder S I) (L : S -> Prop) (low : S -> nat) : Prop :=
  (forall s, L s -> told K (dec_req D s) (low s)) /\
  (forall fuel s buf e s' n, L s -> is_reached e = false -> dec_decode D fuel s buf e = (s', Ok n) ->
    low s <= n + low s').
Definition sums {S I} (D : Decoder S I) (L : S -> Prop) : Prop := forall K, exists low, grad K D L low.
Definition frugal_sum {S I} (D : Decoder S I) (m l h : bool) (Init : S -> Prop) : Prop :=
  exists L, provident D m l h L /\ sums D L /\ forall s, Init s -> L s /\ (h = true -> dec_idle D s = false).

Section STry.
Context {S I : Type} (D : Decoder S I) (m l h : bool) (L : S -> Prop) (P : provident D m l h L)
  (K : nat) (low : S -> nat) (F : grad K D L low).
Lemma low_idle : forall s, L s -> dec_idle D s = true -> low s = 0.
Proof. intros s Ls id. pose proof (proj1 F _ Ls) as T. rewrite (pv_idle P _ Ls id) in T. cbn in T. lia. Qed.
Lemma try_sum : forall fuel s off buf e, L s -> is_reached e = false -> off <= length buf ->
  match try_decode D fuel s off buf e with
  | TGo s' o => L s' /\ dec_idle D s' = true /\ off <= o <= length buf /\ low s <= o - off
  | TRet s' (Ok o) => L s' /\ off <= o /\ low s <= (o - off) + low s'
  | _ => True
  end.
Proof.
  intros fuel s off buf e Ls R LE. pose proof (try_L P fuel s off buf e Ls) as T0.
  pose proof (try_n P fuel s off buf e Ls LE (calm _ _ _ R)) as T1.
  destruct (try_decode D fuel s off buf e) as [s' o|s' [o| | |]] eqn:X; auto; unfold try_decode in X.
  - destruct T0 as (T2 & T3 & _), T1 as (T4 & _). split; [exact T2|]. split; [exact T3|]. split; [exact T4|].
    destruct (dec_idle D s) eqn:i0. { rewrite (low_idle Ls i0). lia. }
    unfold slice_from in X. destruct (Nat.leb_spec off (length buf)); [|lia].
    destruct (dec_decode D fuel s (skipn off buf) e) as [s1 [n| | |]] eqn:Y; try discriminate X.
    destruct (dec_idle D s1) eqn:i1; [|discriminate X]. injection X as <- <-.
    pose proof (proj2 F _ _ _ _ _ _ Ls R Y). rewrite (low_idle T2 i1) in *. lia.
  - destruct T0 as (T2 & T3 & _). split; [exact T2|]. rewrite T3 in X.
    unfold slice_from in X. destruct (Nat.leb_spec off (length buf)); [|lia].
    destruct (dec_decode D fuel s (skipn off buf) e) as [s1 [n| | |]] eqn:Y; try discriminate X.
    destruct (dec_idle D s1) eqn:i1; [discriminate X|]. injection X as <- <-.
    pose proof (proj2 F _ _ _ _ _ _ Ls R Y). lia.
Qed.
End STry.

Lemma sum_sub : forall S I J (D : Decoder S I) (D' : Decoder S J) m l h L,
  (forall fuel s buf e s' n, dec_decode D' fuel s buf e = (s', Ok n) -> dec_decode D fuel s buf e = (s', Ok n)) ->
  (forall s s' j, dec_finish D' s = (s', Ok j) -> exists i, dec_finish D s = (s', Ok i)) ->
  (forall s, dec_req D' s = dec_req D s) ->
  (forall s, dec_idle D' s = dec_idle D s) -> frugal_sum D m l h L -> frugal_sum D' m l h L.
Proof.
  intros S I J D D' m l h Init A F Q B (L & P & U & H). exists L. split; [|split].
  - eapply provident_sub; eauto.
  - intros K. destruct (U K) as (low & U1 & U2). exists low. split; [intros s; rewrite Q; auto|]. intros fuel s buf e s' n Ls R X. eapply U2; eauto.
  - intros s. rewrite B. auto.
Qed.

Lemma copy_sum : forall B (BX : ByteBox B), box_ok BX -> sums (copy_decoder BX) (fun _ => True).
Proof.
  intros B BX OK K. exists (fun s => length (bx_ref BX (cd_bytes s)) - cd_off s). split.
  - intros [b o] _. cbn. unfold usize_sub. destruct (Nat.leb_spec o (length (bx_ref BX b))); cbn; auto.
  - intros fuel [b o] buf e s' n _ _ X. cbn -[overwrite] in *. unfold copy_decode in X. cbn -[overwrite] in X.
    unfold usize_sub in *. destruct (Nat.leb_spec o (length (bx_ref BX b))); [|discriminate].
    set (k := Nat.min (length buf) (length (bx_ref BX b) - o)) in *.
    assert (LK : length (firstn k buf) = k) by (rewrite firstn_length; lia).
    rewrite !(box_get_put OK) in X by (apply overwrite_length; lia). rewrite overwrite_length in X by lia.
    destruct (_ && _); [discriminate|]. injection X as <- <-. cbn -[overwrite].
    rewrite !(box_get_put OK) by (apply overwrite_length; lia). rewrite overwrite_length by lia. lia.
Qed.
Lemma bytes_sum : forall B (BX : ByteBox B), box_ok BX ->
  sums (bytes_decoder BX) (fun s => match bd_bytes s with Some b => bd_off s <= length (bx_ref BX b) | None => True end).
Proof.
  intros B BX OK K.
  exists (fun s => match bd_bytes s with Some b => length (bx_ref BX b) - bd_off s | None => 0 end). split.
  - intros [[b|] o]; cbn; auto. unfold usize_sub. destruct (Nat.leb_spec o (length (bx_ref BX b))); cbn; auto.
  - intros fuel [[b|] o] buf e s' n LE _ X; cbn -[overwrite] in *; unfold bytes_decode in X;
      cbn -[overwrite] in X; [|discriminate]. unfold usize_sub in *.
    destruct (Nat.leb_spec o (length (bx_ref BX b))); [|discriminate].
    set (k := Nat.min (length buf) (length (bx_ref BX b) - o)) in *.
    assert (LK : length (firstn k buf) = k) by (rewrite firstn_length; lia).
    destruct (_ && _); [discriminate|]. injection X as <- <-. cbn -[overwrite].
    rewrite !(box_get_put OK) by (apply overwrite_length; lia). rewrite overwrite_length by lia. lia.
Qed.
Lemma rem_sum : sums rem_decoder (fun _ => True).
Proof.
  intros K. exists (fun s => if rm_eos s then 0 else K). split; [intros [b [|]] _; cbn; auto|].
  intros fuel [b [|]] buf e s' n _ R; cbn; unfold rem_decode; cbn; [lia|].
  destruct (bc_to_u64 _); [destruct (_ <=? _)%N; [|discriminate]|]; intros [= <- <-]; cbn; rewrite R; lia.
Qed.
Lemma pad_sum : sums pad_decoder (fun _ => True).
Proof.
  intros K. exists (fun s => if pd_eos s then 0 else K). split; [intros [b [|]] _; cbn; auto|].
  intros fuel [b [|]] buf e s' n _ R; cbn; unfold pad_decode; cbn; [lia|].
  destruct b; [destruct (forallb _ _); [|discriminate]|]; intros [= <- <-]; cbn; rewrite R; lia.
Qed.
Lemma mono_sum : forall I (f : MonoDecode I), sums (mono_decoder f) (fun _ => True).
Proof. intros I f K. exists (fun _ => 0). split; [intros [[i|] b] _; cbn; auto|lia]. Qed.
Lemma null_sum : sums null_decoder (fun _ => True).
Proof. intros K. exists (fun _ => 0). split; [intros s _; cbn; auto|lia]. Qed.

Section SOne.
Context {S I : Type} (D : Decoder S I) (m l h : bool) (L : S -> Prop) (P : provident D m l h L) (F : sums D L).
Lemma omit_sum : sums (omit_decoder D) (fun st => L (om_inner st)).
Proof.
  intros K. destruct (F K) as (low & F1 & F2). exists (fun st => if om_omit st then 0 else low (om_inner st)). split.
  - intros [s [|]] Ls; cbn; auto.
  - intros fuel [s [|]] buf e s' n Ls R; cbn; [lia|].
    destruct (dec_decode D fuel s buf e) as [s1 r] eqn:X. intros [= <- ->]. cbn. eapply F2; eauto.
Qed.
Lemma collect_loop_sum : forall K low, grad K D L low -> forall k fuel s items off buf e s' n, L s -> is_reached e = false ->
  off <= length buf -> collect_loop D k fuel s items off buf e = (s', Ok n) ->
  cl_eos s' = false /\ off <= n /\ low s <= (n - off) + low (cl_inner s').
Proof.
  intros K low G. induction k as [|k IH]; intros fuel s items off buf e s' n Ls R LE; cbn [collect_loop].
  { destruct (Nat.ltb_spec off (length buf)); [discriminate|]. intros [= <- <-]. cbn. split; [exact R|lia]. }
  destruct (Nat.ltb_spec off (length buf)).
  2: { intros [= <- <-]. cbn. split; [exact R|lia]. }
  pose proof (try_sum P G fuel s buf e Ls R LE) as T.
  destruct (try_decode D fuel s off buf e) as [s1 o|s1 r] eqn:X.
  - destruct T as (T1 & T2 & T3 & T4).
    destruct (dec_finish D s1) as [s2 [i| | |]] eqn:Fn; try discriminate. intros Y.
    apply IH in Y; [|exact (proj1 (pv_finish P _ T1 Fn))|exact R|lia]. split; [apply Y|]. lia.
  - intros [= <- ->]. cbn. split; [auto|]. lia.
Qed.
Lemma collect_sum : sums (collect_decoder D) (fun st => L (cl_inner st)).
Proof.
  intros K. destruct (F K) as (low & G). exists (fun st => if cl_eos st then 0 else low (cl_inner st)). split.
  - intros [s its [|]] Ls; cbn; auto. now apply G.
  - intros fuel [s its [|]] buf e s' n Ls R; cbn; [lia|]. intros X. apply (collect_loop_sum G) in X; auto; [|lia].
    destruct X as (-> & X). lia.
Qed.
Lemma collectn_loop_sum : forall K low, grad K D L low -> forall fuel rem s items off buf e s' n, L s -> is_reached e = false ->
  off <= length buf -> collectn_loop D fuel rem s items off buf e = (s', Ok n) ->
  off <= n /\ (rem = 0 \/ low s <= (n - off) + (if cn_remaining s' =? 0 then 0 else low (cn_inner s'))).
Proof.
  intros K low G fuel. induction rem as [|rem IH]; intros s items off buf e s' n Ls R LE; cbn [collectn_loop].
  { cbn. intros [= <- <-]. auto. }
  destruct (Nat.ltb_spec off (length buf)).
  2: { cbn. rewrite R, andb_false_r. intros [= <- <-]. cbn. split; [lia|]. right.
       destruct (Nat.eqb_spec (Datatypes.S rem) 0); [discriminate|]. lia. }
  pose proof (try_sum P G fuel s buf e Ls R LE) as T.
  destruct (try_decode D fuel s off buf e) as [s1 o|s1 r] eqn:X.
  - destruct T as (T1 & T2 & T3 & T4).
    destruct (dec_finish D s1) as [s2 [i| | |]] eqn:Fn; try discriminate. intros Y.
    apply IH in Y; [|exact (proj1 (pv_finish P _ T1 Fn))|exact R|lia]. split; [lia|]. right. lia.
  - intros [= <- ->]. cbn. split; [lia|]. right. destruct (Nat.eqb_spec (Datatypes.S rem) 0); [discriminate|]. lia.
Qed.
Lemma collectn_sum : sums (collectn_decoder D) (fun st => L (cn_inner st)).
Proof.
  intros K. destruct (F K) as (low & G). exists (fun st => if cn_remaining st =? 0 then 0 else low (cn_inner st)). split.
  - intros [s rm its] Ls; cbn. destruct (rm =? 0); cbn; auto. now apply G.
  - intros fuel [s rm its] buf e s' n Ls R; cbn. intros X. apply (collectn_loop_sum G) in X; auto; [|lia].
    destruct X as [_ X]. destruct (Nat.eqb_spec rm 0); [lia|]. destruct X as [X|X]; [contradiction|]. lia.
Qed.
Lemma max_sum : sums (max_decoder D) (fun st => L (mx_inner st)).
Proof.
  intros K. destruct (F K) as (low & F1 & F2). exists (fun st => low (mx_inner st)). split; [intros [s c mx]; cbn; auto|].
  intros fuel [s c mx] buf e s' n Ls R; cbn; unfold max_decode; cbn.
  destruct (max_check _ _ _); try discriminate. destruct (dec_decode D fuel s buf e) as [s1 [k| | |]] eqn:X; try discriminate.
  destruct (u64_add _ _); [|discriminate]; intros [= <- <-]; cbn; eapply F2; eauto.
Qed.
Lemma maybe_sum : sums (maybe_decoder D) (fun st => L (my_inner st)).
Proof.
  intros K. destruct (F K) as (low & F1 & F2). exists (fun st => low (my_inner st)). split; [intros [s c]; cbn; auto|].
  intros fuel [s b] buf e s' n Ls R; cbn; unfold maybe_decode; cbn. rewrite R, andb_false_r.
  destruct (dec_decode D fuel s buf e) as [s1 [k| | |]] eqn:X; try discriminate. intros [= <- <-]. cbn. eapply F2; eauto.
Qed.
Lemma peek_sum : sums (peek_decoder D) (fun st => L (pk_inner st)).
Proof.
  intros K. destruct (F K) as (low & F1 & F2). exists (fun st => if pk_item st then 0 else low (pk_inner st)). split.
  - intros [s [i|]] Ls; cbn; auto.
  - intros fuel [s [i|]] buf e s' n Ls R; cbn; unfold peek_decode; cbn; [lia|].
    destruct (dec_decode D fuel s buf e) as [s1 [k| | |]] eqn:X; try discriminate.
    pose proof (F2 _ _ _ _ _ _ Ls R X) as H. cbn in H. pose proof (pv_decode P _ _ _ _ Ls X) as L1.
    destruct (dec_idle D s1) eqn:id; [destruct (dec_finish D s1) as [s2 [i| | |]]; try discriminate|]; intros [= <- <-]; cbn.
    + rewrite (low_idle P (conj F1 F2) _ L1 id) in H. cbn in H. lia.
    + lia.
Qed.
Lemma length_sum : m = true -> h = true ->
  sums (length_decoder D) (fun st => L (ln_inner st) /\ (dec_idle D (ln_inner st) = true -> ln_remaining st = 0%N)).
Proof.
  intros Tm Th K. exists (fun st => N.to_nat (ln_remaining st)). split.
  - intros [s ex rm] _. cbn. lia.
  - intros fuel [s ex rm] buf e s' n [Ls Z] R X. cbn in *. unfold length_decode in X.
    cbn [ln_inner ln_expected ln_remaining] in X. cbv zeta in X.
    set (limit := N.min (len buf) rm) in *.
    assert (Y : ln_remaining s' = (rm - N.of_nat n)%N).
    { destruct (dec_decode D fuel s _ _) as [s1 r].
      destruct (bc_to_u64 _) as [q|]; [destruct (u64_add _ _); [destruct (_ <=? _)%N; [|discriminate]|discriminate]|];
        destruct r; try discriminate; unfold u64_sub in X; (destruct (N.leb_spec (N.of_nat a) rm); [|discriminate]); injection X as <- <-; auto. }
    rewrite Y. lia.
Qed.
End SOne.

Section STwo.
Context {S0 S1 I0 I1 : Type} (D0 : Decoder S0 I0) (D1 : Decoder S1 I1) (m0 l0 h0 m1 l1 h1 : bool)
  (L0 : S0 -> Prop) (L1 : S1 -> Prop) (H0 : provident D0 m0 l0 h0 L0) (H1 : provident D1 m1 l1 h1 L1)
  (F0 : sums D0 L0) (F1 : sums D1 L1).
Lemma body_sum : forall K low1, grad K D1 L1 low1 -> forall fuel (s0 : S0) s1 off buf e s' n, L1 s1 -> is_reached e = false -> off <= length buf ->
  and_then_body D1 fuel s0 s1 off buf e = (s', Ok n) ->
  off <= n /\ exists t, s' = mkAndThen s0 (Some t) /\ low1 s1 <= (n - off) + low1 t.
Proof.
  intros K low1 G fuel s0 s1 off buf e s' n A1 R LE. unfold and_then_body.
  pose proof (try_sum H1 G fuel s1 buf e A1 R LE) as T.
  destruct (try_decode D1 fuel s1 off buf e) as [t o|t r] eqn:X; intros [= <- E].
  - subst o. split; [lia|]. exists t. split; [auto|]. lia.
  - subst r. split; [lia|]. exists t. split; [auto|]. lia.
Qed.
Lemma and_then_sum : forall f, (forall i, L1 (f i)) ->
  sums (and_then_decoder D0 D1 f)
    (fun st => L0 (at_inner0 st) /\ match at_inner1 st with Some s1 => L1 s1 | None => True end).
Proof.
  intros f HF K. destruct (F0 K) as (low0 & G0), (F1 K) as (low1 & G1).
  exists (fun st => match at_inner1 st with Some s1 => low1 s1 | None => low0 (at_inner0 st) end). split.
  - intros [s0 [s1|]] [A0 A1]; cbn in *; [now apply G1|now apply G0].
  - intros fuel [s0 [s1|]] buf e s' n [A0 A1] R; cbn in A0, A1; cbn [dec_decode and_then_decoder];
      unfold and_then_decode; cbn [at_inner0 at_inner1]; intros X.
    + destruct (body_sum G1 _ _ _ _ A1 R (Nat.le_0_l _) X) as [_ (t & -> & T)]. cbn. lia.
    + pose proof (try_sum H0 G0 fuel s0 buf e A0 R (Nat.le_0_l _)) as T0.
      destruct (try_decode D0 fuel s0 0 buf e) as [t o|t r] eqn:Y.
      * destruct T0 as (T1 & T2 & T3 & T4).
        destruct (dec_finish D0 t) as [t' [i| | |]] eqn:Fn; try discriminate.
        destruct (body_sum G1 _ _ _ _ (HF i) R (proj2 T3) X) as [T5 _]. lia.
      * injection X as <- ->. cbn. lia.
Qed.
Lemma pair_sum : forall D' (C : S0 * S1 -> Prop),
  (forall fuel s buf e, dec_decode D' fuel s buf e = dec_decode (tuple2_decoder D0 D1) fuel s buf e) ->
  (forall K s n0 n1, told K (dec_req D0 (fst s)) n0 -> told K (dec_req D1 (snd s)) n1 -> told K (dec_req D' s) (n0 + n1)) ->
  sums (I := I0 * I1) D' (fun s => L0 (fst s) /\ L1 (snd s) /\ C s).
Proof.
  intros D' C XD XQ K. destruct (F0 K) as (low0 & G0), (F1 K) as (low1 & G1).
  exists (fun s => low0 (fst s) + low1 (snd s)). split.
  { intros [s0 s1] (A0 & A1 & _). apply XQ; [now apply G0|now apply G1]. }
  intros fuel [s0 s1] buf e s' n (A0 & A1 & _) R X. rewrite XD in X. cbn [fst snd] in *.
  unfold tuple2_decoder, tuple_of_dec_parts, dec_decode, dec_parts2, dp_snoc, dp_decode, dp_one in X. cbn [fst snd] in X.
  pose proof (try_sum H0 G0 fuel s0 buf e A0 R (Nat.le_0_l _)) as T0.
  destruct (try_decode D0 fuel s0 0 buf e) as [t o|t r] eqn:X0.
  - destruct T0 as (T1 & T2 & T3 & T4).
    pose proof (try_sum H1 G1 fuel s1 buf e A1 R (proj2 T3)) as U0.
    destruct (try_decode D1 fuel s1 o buf e) as [u p|u r1] eqn:X1; injection X as <- E; cbn [fst snd].
    + subst p. lia.
    + subst r1. lia.
  - injection X as <- ->. cbn [fst snd]. lia.
Qed.
End STwo.

Lemma told_add : forall K q0 q1 n0 n1, told K q0 n0 -> told K q1 n1 ->
  told K (rbind q0 (fun q => rbind q1 (add_for_decoding q))) (n0 + n1).
Proof.
  intros K [[k0| |]| | |] [[k1| |]| | |] n0 n1; cbn; auto; try tauto; try lia.
  - intros A B. unfold u64_add. destruct (_ <=? _)%N; cbn; auto. lia.
  - intros A B. destruct (N.eqb_spec k0 0); cbn; lia.
  - intros A B. destruct (N.eqb_spec k1 0); cbn; lia.
Qed.
Lemma told_zero : forall K q n, told K q n -> told K (rbind q (add_for_decoding (Finite 0))) n.
Proof.
  intros K [[k| |]| | |] n; cbn; auto. intros A. unfold u64_add. destruct (_ <=? _)%N; cbn; auto.
Qed.

Lemma frugal_sums : forall S I (D : Decoder S I) m l h Init, frugal D m l h Init -> frugal_sum D m l h Init.
Proof.
  induction 1.
  - destruct IHfrugal as (L & P & F & Q). exists L. auto.
  - eexists. split; [apply copy_prov; auto|]. split; [apply copy_sum; auto|]. split; [auto|discriminate].
  - eexists. split; [apply bytes_prov; auto|]. split; [apply bytes_sum; auto|]. intros s [b ->]. cbn. split; [lia|discriminate].
  - eexists. split; [apply rem_prov|]. split; [apply rem_sum|]. intros s ->. auto.
  - eexists. split; [apply null_prov|]. split; [apply null_sum|]. split; [auto|discriminate].
  - eexists. split; [apply pad_prov|]. split; [apply pad_sum|]. intros s [b ->]. auto.
  - eexists. split; [apply mono_prov|]. split; [apply mono_sum|]. split; [auto|discriminate].
  - eexists. split; [apply mono_all_prov; auto|]. split; [apply mono_sum|]. intros s ->. auto.
  - eapply sum_sub with (D := copy_decoder vec_box); cbn; auto.
    + intros s s' j. destruct (copy_finish vec_box s) as [t [i| | |]]; try discriminate. intros [= <- <-]. eauto.
    + eexists. split; [apply copy_prov, vec_box_ok|]. split; [apply copy_sum, vec_box_ok|]. split; [auto|discriminate].
  - eapply sum_sub; [| | | |eassumption]; cbn; auto.
    intros s s' j. destruct (dec_finish D s) as [t [i| | |]]; cbn; try discriminate. destruct (str_from_utf8 i); try discriminate.
    intros [= <- <-]. eauto.
  - eapply sum_sub; [| | | |eassumption]; cbn; auto.
    intros s s' j. destruct (dec_finish D s) as [t [i| | |]]; try discriminate. intros [= <- <-]. eauto.
  - eapply sum_sub; [| | | |eassumption]; cbn; auto.
    intros s s' j. destruct (dec_finish D s) as [t [i| | |]]; cbn; try discriminate. destruct (f i); try discriminate. intros [= <- <-]. eauto.
  - eapply sum_sub; [| | | |eassumption]; cbn; auto.
    + intros fuel s buf e s' n. destruct (dec_decode D fuel s buf e) as [s1 [k| | |]]; cbn; try discriminate. auto.
    + intros s s' j. destruct (dec_finish D s) as [t [i| | |]]; cbn; try discriminate. intros [= <- <-]. eauto.
  - destruct IHfrugal1 as (L0 & P0 & F0 & Q0), IHfrugal2 as (L1 & P1 & F1 & Q1).
    eexists. split; [eapply and_then_prov; eauto|]. split; [eapply and_then_sum; eauto; intro; apply Q1; auto|].
    intros st (s & Z & ->). cbn. split; auto. split; [apply Q0|]; auto.
  - destruct IHfrugal as (L & P & F & Q). eexists. split; [eapply omit_prov; eauto|]. split; [eapply omit_sum; eauto|].
    intros st Z. split; [now apply Q|discriminate].
  - destruct IHfrugal as (L & P & F & Q). eexists. split; [eapply collect_prov; eauto|]. split; [eapply collect_sum; eauto|].
    intros st (s & Z & ->). split; [now apply Q|auto].
  - destruct IHfrugal as (L & P & F & Q). eexists. split; [eapply collectn_prov; eauto|]. split; [eapply collectn_sum; eauto|].
    intros st (s & n & Z & ->). split; [now apply Q|discriminate].
  - destruct IHfrugal as (L & P & F & Q). eexists. split; [eapply length_prov; eauto|]. split; [eapply length_sum; eauto|].
    intros st (s & n & Z & ->).
    destruct (Q _ Z) as [Q1 Q2]. cbn. split; [split; auto|discriminate]. rewrite Q2; [discriminate|auto].
  - destruct IHfrugal as (L & P & F & Q). eexists. split; [eapply max_prov; eauto|]. split; [eapply max_sum; eauto|].
    intros st Z. now apply Q.
  - destruct IHfrugal as (L & P & F & Q). eexists. split; [eapply peek_prov; eauto|]. split; [eapply peek_sum; eauto|].
    intros st (s & Z & ->). split; [now apply Q|discriminate].
  - destruct IHfrugal as (L & P & F & Q). eexists. split; [eapply maybe_prov; eauto|]. split; [eapply maybe_sum; eauto|].
    intros st Z. split; [now apply Q|discriminate].
  - destruct IHfrugal1 as (L0 & P0 & F0 & Q0), IHfrugal2 as (L1 & P1 & F1 & Q1).
    assert (XQ : forall K (s : S0 * S1) n0 n1, told K (dec_req D0 (fst s)) n0 -> told K (dec_req D1 (snd s)) n1 ->
              told K (dec_req (tuple2_decoder D0 D1) s) (n0 + n1)).
    { intros K [s0 s1] n0 n1 A B. cbn -[add_for_decoding] in *. apply told_zero in A.
      pose proof (told_add _ _ _ _ _ A B) as C. destruct (dec_req D0 s0); auto. }
    eexists. split; [eapply (pair_prov P0 P1); auto|split; [eapply (pair_sum P0 P1); auto|]].
    + intros [s0 s1] n0 n1 A B. cbn -[add_for_decoding] in *. apply within_zero in A.
      pose proof (within_add _ _ _ _ A B) as C. destruct (dec_req D0 s0); auto.
    + intros [s0 s1] A B. cbn -[add_for_decoding] in *. now rewrite A, B.
    + intros [s0 s1] [Z0 Z1]. cbn in *. destruct (Q1 _ Z1) as [Q2 Q3], (Q0 _ Z0) as [Q4 _].
      assert (N : l0 && h1 = true -> dec_idle D1 s1 = false) by (intros T; apply andb_prop in T as [_ T]; auto).
      repeat split; auto.
      * intros T. rewrite N; [discriminate|auto].
      * intros T. rewrite N; [apply andb_false_r|auto].
  - destruct IHfrugal1 as (L0 & P0 & F0 & Q0), IHfrugal2 as (L1 & P1 & F1 & Q1).
    destruct (tuple_snoc_eq D1 H) as (A & B & _ & C).
    assert (XQ : forall K (s : S0 * S1) n0 n1, told K (dec_req (tuple_of_dec_parts P) (fst s)) n0 -> told K (dec_req D1 (snd s)) n1 ->
              told K (dec_req (tuple_of_dec_parts (dp_snoc P D1)) s) (n0 + n1)).
    { intros K [s0 s1] n0 n1 X Y. cbn -[add_for_decoding] in *. now apply told_add. }
    eexists. split; [eapply (pair_prov P0 P1); auto|split; [eapply (pair_sum P0 P1); auto|]].
    + intros [s0 s1] n0 n1 X Y. cbn -[add_for_decoding] in *. now apply within_add.
    + intros [s0 s1] X Y. cbn -[add_for_decoding] in *. now rewrite X, Y.
    + intros [s0 s1] [Z0 Z1]. cbn in *. destruct (Q1 _ Z1) as [Q2 Q3], (Q0 _ Z0) as [Q4 _].
      assert (N : l0 && h1 = true -> dec_idle D1 s1 = false) by (intros T; apply andb_prop in T as [_ T]; auto).
      repeat split; auto.
      * intros T. rewrite N; [discriminate|auto].
      * intros T. rewrite N; [apply andb_false_r|auto].
Qed.
