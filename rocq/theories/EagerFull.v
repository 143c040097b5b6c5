(** * Proofs for C72: no item is completed with fewer bytes than [requiring_bytes] said *)
From Coq Require Import Lia ZifyBool ZifyNat ZifyN.
From Verif Require Import EagerProofs.
Set Implicit Arguments.
Local Arguments Nat.eqb : simpl never.
Local Arguments Nat.ltb : simpl never.
Local Arguments N.eqb : simpl never.

Definition full {S I} (D : Decoder S I) (L : S -> Prop) : Prop :=
  forall fuel s buf e s' n, L s -> is_reached e = false -> dec_decode D fuel s buf e = (s', Ok n) ->
    dec_idle D s' = true -> within (dec_req D s) n.
Definition frugal_full {S I} (D : Decoder S I) (m l h : bool) (Init : S -> Prop) : Prop :=
  exists L, provident D m l h L /\ full D L /\ forall s, Init s -> L s /\ (h = true -> dec_idle D s = false).

Lemma calm : forall m e buf, is_reached e = false -> gentle m e buf.
Proof. unfold gentle. auto. Qed.

Lemma try_full : forall S I (D : Decoder S I) m l h L, provident D m l h L -> full D L ->
  forall fuel s off buf e s' o, L s -> is_reached e = false -> off <= length buf ->
    try_decode D fuel s off buf e = TGo s' o -> off <= o <= length buf /\ within (dec_req D s) (o - off).
Proof.
  intros S I D m l h L P F fuel s off buf e s' o Ls R LE X.
  pose proof (try_n P fuel s off buf e Ls LE (calm _ _ _ R)) as T. rewrite X in T. destruct T as (T1 & _ & _).
  split; [exact T1|]. unfold try_decode in X. destruct (dec_idle D s) eqn:i0.
  { injection X as <- <-. rewrite (pv_idle P _ Ls i0). cbn. lia. }
  unfold slice_from in X. destruct (Nat.leb_spec off (length buf)); [|lia].
  destruct (dec_decode D fuel s (skipn off buf) e) as [s1 [n| | |]] eqn:Y; try discriminate X.
  destruct (dec_idle D s1) eqn:i1; [|discriminate X]. injection X as <- <-.
  replace (off + n - off) with n by lia. exact (F _ _ _ _ _ _ Ls R Y i1).
Qed.

Lemma full_sub : forall S I J (D : Decoder S I) (D' : Decoder S J) m l h L,
  (forall fuel s buf e s' n, dec_decode D' fuel s buf e = (s', Ok n) -> dec_decode D fuel s buf e = (s', Ok n)) ->
  (forall s s' j, dec_finish D' s = (s', Ok j) -> exists i, dec_finish D s = (s', Ok i)) ->
  (forall s, dec_req D' s = dec_req D s) ->
  (forall s, dec_idle D' s = dec_idle D s) -> frugal_full D m l h L -> frugal_full D' m l h L.
Proof.
  intros S I J D D' m l h Init A F Q B (L & P & U & H). exists L. split; [|split].
  - eapply provident_sub; eauto.
  - intros fuel s buf e s' n Ls R X id. rewrite Q. rewrite B in id. eapply U; eauto.
  - intros s. rewrite B. auto.
Qed.

Lemma copy_full : forall B (BX : ByteBox B), box_ok BX -> full (copy_decoder BX) (fun _ => True).
Proof.
  intros B BX OK fuel [b o] buf e s' n _ _ X id. cbn -[overwrite] in *. unfold copy_decode in X. cbn -[overwrite] in X.
  unfold usize_sub in *. destruct (Nat.leb_spec o (length (bx_ref BX b))); [|discriminate].
  set (k := Nat.min (length buf) (length (bx_ref BX b) - o)) in *.
  assert (LK : length (firstn k buf) = k) by (rewrite firstn_length; lia).
  rewrite !(box_get_put OK) in X by (apply overwrite_length; lia). rewrite overwrite_length in X by lia.
  destruct (_ && _); [discriminate|]. injection X as <- <-. cbn -[overwrite] in id.
  rewrite !(box_get_put OK) in id by (apply overwrite_length; lia). rewrite overwrite_length in id by lia. cbn. lia.
Qed.
Lemma bytes_full : forall B (BX : ByteBox B), box_ok BX ->
  full (bytes_decoder BX) (fun s => match bd_bytes s with Some b => bd_off s <= length (bx_ref BX b) | None => True end).
Proof.
  intros B BX OK fuel [[b|] o] buf e s' n LE _ X id; cbn -[overwrite] in *; unfold bytes_decode in X;
    cbn -[overwrite] in X; [|discriminate]. unfold bytes_dec_exact in *. cbn -[overwrite] in *. unfold usize_sub in *.
  destruct (Nat.leb_spec o (length (bx_ref BX b))); [|discriminate].
  set (k := Nat.min (length buf) (length (bx_ref BX b) - o)) in *.
  assert (LK : length (firstn k buf) = k) by (rewrite firstn_length; lia).
  destruct (_ && _); [discriminate|]. injection X as <- <-. cbn -[overwrite] in id.
  rewrite !(box_get_put OK) in id by (apply overwrite_length; lia). rewrite overwrite_length in id by lia. cbn. lia.
Qed.
Lemma rem_full : full rem_decoder (fun _ => True).
Proof.
  intros fuel [b [|]] buf e s' n _ R; cbn; unfold rem_decode; cbn.
  - intros [= <- <-]. cbn. lia.
  - destruct (bc_to_u64 _); [destruct (_ <=? _)%N; [|discriminate]|]; intros [= <- <-]; cbn; congruence.
Qed.
Lemma pad_full : full pad_decoder (fun _ => True).
Proof.
  intros fuel [b [|]] buf e s' n _ R; cbn; unfold pad_decode; cbn.
  - intros [= <- <-]. cbn. lia.
  - destruct b; [destruct (forallb _ _); [|discriminate]|]; intros [= <- <-]; cbn; congruence.
Qed.
Lemma mono_full : forall I (f : MonoDecode I), full (mono_decoder f) (fun _ => True).
Proof.
  intros I f fuel [[o|] b] buf e s' n _ R; cbn; unfold mono_decode; cbn; rewrite R; intros [= <- <-]; cbn;
    [lia|discriminate].
Qed.
Lemma null_full : full null_decoder (fun _ => True).
Proof. intros fuel s buf e s' n _ _. cbn. intros [= <- <-]. cbn. lia. Qed.

Section FOne.
Context {S I : Type} (D : Decoder S I) (m l h : bool) (L : S -> Prop) (P : provident D m l h L) (F : full D L).
Lemma omit_full : full (omit_decoder D) (fun st => L (om_inner st)).
Proof.
  intros fuel [s [|]] buf e s' n Ls R; cbn.
  - intros [= <- <-]. cbn. lia.
  - destruct (dec_decode D fuel s buf e) as [s1 r] eqn:X. intros [= <- ->]. cbn. eapply F; eauto.
Qed.
Lemma collect_full : full (collect_decoder D) (fun st => L (cl_inner st)).
Proof.
  intros fuel [s its [|]] buf e s' n Ls R; cbn.
  - intros [= <- <-]. cbn. lia.
  - intros X id. apply (collect_loop_prov P) in X; auto. destruct X as (_ & _ & X & _). specialize (X id). congruence.
Qed.
Lemma collectn_loop_full : forall fuel rem s items off buf e s' n, L s -> is_reached e = false -> off <= length buf ->
  collectn_loop D fuel rem s items off buf e = (s', Ok n) -> cn_remaining s' = 0 ->
  rem = 0 \/ within (dec_req D s) (n - off).
Proof.
  intros fuel [|rem] s items off buf e s' n Ls R LE; cbn [collectn_loop]; auto.
  destruct (Nat.ltb_spec off (length buf)).
  2: { cbn. rewrite R. intros [= <- <-]. discriminate. }
  pose proof (try_L P fuel s off buf e Ls) as T0.
  destruct (try_decode D fuel s off buf e) as [s1 o|s1 r] eqn:X.
  - destruct (try_full P F _ _ _ _ Ls R LE X) as [T1 T2].
    destruct (dec_finish D s1) as [s2 [i| | |]] eqn:Fn; try discriminate. intros Y Z. right.
    apply (collectn_loop_prov P) in Y; [|exact (proj1 (pv_finish P _ (proj1 T0) Fn))]. destruct Y as (_ & _ & Y).
    destruct (Y (proj2 T1) (calm _ _ _ R)) as (Y1 & _). eapply within_le; eauto. lia.
  - intros [= <- ->]. discriminate.
Qed.
Lemma collectn_full : full (collectn_decoder D) (fun st => L (cn_inner st)).
Proof.
  intros fuel [s rm its] buf e s' n Ls R; cbn. intros X id. apply Nat.eqb_eq in id.
  apply collectn_loop_full in X; auto; [|lia]. destruct (Nat.eqb_spec rm 0); cbn; [lia|].
  destruct X as [X|X]; [contradiction|]. now rewrite Nat.sub_0_r in X.
Qed.
Lemma max_full : full (max_decoder D) (fun st => L (mx_inner st)).
Proof.
  intros fuel [s c mx] buf e s' n Ls R; cbn; unfold max_decode; cbn.
  destruct (max_check _ _ _); try discriminate. destruct (dec_decode D fuel s buf e) as [s1 [k| | |]] eqn:X; try discriminate.
  destruct (u64_add _ _); [|discriminate]; intros [= <- <-]; cbn; eapply F; eauto.
Qed.
Lemma maybe_full : full (maybe_decoder D) (fun st => L (my_inner st)).
Proof.
  intros fuel [s b] buf e s' n Ls R; cbn; unfold maybe_decode; cbn. rewrite R, andb_false_r.
  destruct (dec_decode D fuel s buf e) as [s1 [k| | |]] eqn:X; try discriminate. intros [= <- <-]. cbn. eapply F; eauto.
Qed.
Lemma peek_full : full (peek_decoder D) (fun st => L (pk_inner st)).
Proof.
  intros fuel [s [i|]] buf e s' n Ls R; cbn; unfold peek_decode; cbn.
  { intros [= <- <-]. cbn. lia. }
  destruct (dec_decode D fuel s buf e) as [s1 [k| | |]] eqn:X; try discriminate.
  destruct (dec_idle D s1) eqn:id; [destruct (dec_finish D s1) as [s2 [i| | |]]; try discriminate|]; intros [= <- <-]; cbn.
  - intros _. eapply F; eauto.
  - discriminate.
Qed.
Lemma length_full : m = true -> h = true ->
  full (length_decoder D) (fun st => L (ln_inner st) /\ (dec_idle D (ln_inner st) = true -> ln_remaining st = 0%N)).
Proof.
  intros Tm Th fuel [s ex rm] buf e s' n [Ls Z] R X id. cbn in *. unfold length_decode in X.
  cbn [ln_inner ln_expected ln_remaining] in X. cbv zeta in X.
  set (limit := N.min (len buf) rm) in *.
  assert (Y : exists s1, dec_decode D fuel s (firstn (N.to_nat limit) buf) (eos_with_remaining (Finite (rm - limit))) = (s1, Ok n)
     /\ ln_inner s' = s1 /\ ln_remaining s' = (rm - N.of_nat n)%N).
  { destruct (dec_decode D fuel s _ _) as [s1 r]; exists s1.
    destruct (bc_to_u64 _) as [q|]; [destruct (u64_add _ _); [destruct (_ <=? _)%N; [|discriminate]|discriminate]|];
      destruct r; try discriminate; unfold u64_sub in X; (destruct (N.leb_spec (N.of_nat a) rm); [|discriminate]); injection X as <- <-; auto. }
  destruct Y as (s1 & Y & E1 & _). rewrite E1 in id.
  destruct (dec_idle D s) eqn:i0; [rewrite (Z eq_refl); lia|].
  destruct (pv_hungry P _ _ _ _ Th Ls i0 Y) as [P1 P2]. specialize (P1 (or_introl Tm)). specialize (P2 id).
  assert (LL : length (firstn (N.to_nat limit) buf) = N.to_nat limit) by (rewrite firstn_length; unfold limit, len in *; lia).
  rewrite LL in P1. unfold is_reached, eos_with_remaining in P2.
  destruct (N.eq_dec (rm - limit) 0) as [Q|Q]; [lia|]. destruct (rm - limit)%N; [lia|discriminate].
Qed.
End FOne.

Section FTwo.
Context {S0 S1 I0 I1 : Type} (D0 : Decoder S0 I0) (D1 : Decoder S1 I1) (m0 l0 h0 m1 l1 h1 : bool)
  (L0 : S0 -> Prop) (L1 : S1 -> Prop) (H0 : provident D0 m0 l0 h0 L0) (H1 : provident D1 m1 l1 h1 L1)
  (F0 : full D0 L0) (F1 : full D1 L1).
Lemma body_full : forall fuel s0 s1 off buf e s' n, L1 s1 -> is_reached e = false -> off <= length buf ->
  and_then_body D1 fuel s0 s1 off buf e = (s', Ok n) -> dec_idle (and_then_decoder D0 D1 (fun _ => s1)) s' = true ->
  off <= n /\ within (dec_req D1 s1) (n - off).
Proof.
  intros fuel s0 s1 off buf e s' n A1 R LE. unfold and_then_body.
  pose proof (try_L H1 fuel s1 off buf e A1) as T0.
  destruct (try_decode D1 fuel s1 off buf e) as [t o|t r] eqn:X; intros [= <- E]; cbn.
  - subst o. intros _. destruct (try_full H1 F1 _ _ _ _ A1 R LE X) as [T1 T2]. split; [lia|exact T2].
  - subst r. destruct T0 as (_ & _ & T & _). congruence.
Qed.
Lemma and_then_full : forall f, (forall i, L1 (f i)) ->
  full (and_then_decoder D0 D1 f)
    (fun st => L0 (at_inner0 st) /\ match at_inner1 st with Some s1 => L1 s1 | None => True end).
Proof.
  intros f HF fuel [s0 [s1|]] buf e s' n [A0 A1] R; cbn in A0, A1; cbn [dec_decode and_then_decoder];
    unfold and_then_decode; cbn [at_inner0 at_inner1]; intros X id; cbn.
  - destruct (body_full _ _ _ _ A1 R (Nat.le_0_l _) X id) as [_ T]. now rewrite Nat.sub_0_r in T.
  - pose proof (try_L H0 fuel s0 0 buf e A0) as T0.
    destruct (try_decode D0 fuel s0 0 buf e) as [t o|t r] eqn:Y.
    + destruct (try_full H0 F0 _ _ _ _ A0 R (Nat.le_0_l _) Y) as [T1 T2].
      destruct (dec_finish D0 t) as [t' [i| | |]] eqn:Fn; try discriminate.
      destruct (body_full _ _ _ _ (HF i) R (proj2 T1) X id) as [T3 _].
      rewrite Nat.sub_0_r in T2. eapply within_le; eauto.
    + injection X as <- ->. discriminate id.
Qed.
Lemma pair_full : forall D' (K : S0 * S1 -> Prop),
  (forall fuel s buf e, dec_decode D' fuel s buf e = dec_decode (tuple2_decoder D0 D1) fuel s buf e) ->
  (forall s, dec_idle D' s = dec_idle (tuple2_decoder D0 D1) s) ->
  (forall s n0 n1, within (dec_req D0 (fst s)) n0 -> within (dec_req D1 (snd s)) n1 -> within (dec_req D' s) (n0 + n1)) ->
  full (I := I0 * I1) D' (fun s => L0 (fst s) /\ L1 (snd s) /\ K s).
Proof.
  intros D' K XD XI XQ fuel [s0 s1] buf e s' n (A0 & A1 & _) R X id. rewrite XD in X. rewrite XI in id.
  pose proof (XQ (s0, s1)) as Q. cbn [fst snd] in *.
  unfold tuple2_decoder, tuple_of_dec_parts, dec_decode, dec_parts2, dp_snoc, dp_decode, dp_one in X. cbn [fst snd] in X.
  pose proof (try_L H0 fuel s0 0 buf e A0) as T0.
  destruct (try_decode D0 fuel s0 0 buf e) as [t o|t r] eqn:X0.
  - destruct (try_full H0 F0 _ _ _ _ A0 R (Nat.le_0_l _) X0) as [T1 T2].
    pose proof (try_L H1 fuel s1 o buf e A1) as U0.
    destruct (try_decode D1 fuel s1 o buf e) as [u p|u r1] eqn:X1; injection X as <- E.
    + subst p. destruct (try_full H1 F1 _ _ _ _ A1 R (proj2 T1) X1) as [T3 T4].
      rewrite Nat.sub_0_r in T2. replace n with (o + (n - o)) by lia. auto.
    + subst r1. destruct U0 as (_ & _ & U & _). cbn in id. rewrite U, andb_false_r in id. discriminate id.
  - injection X as <- ->. destruct T0 as (_ & _ & T & _). cbn in id. rewrite T in id. discriminate id.
Qed.
End FTwo.

Lemma frugal_fulls : forall S I (D : Decoder S I) m l h Init, frugal D m l h Init -> frugal_full D m l h Init.
Proof.
  induction 1.
  - destruct IHfrugal as (L & P & F & Q). exists L. auto.
  - eexists. split; [apply copy_prov; auto|]. split; [apply copy_full; auto|]. split; [auto|discriminate].
  - eexists. split; [apply bytes_prov; auto|]. split; [apply bytes_full; auto|]. intros s [b ->]. cbn. split; [lia|discriminate].
  - eexists. split; [apply rem_prov|]. split; [apply rem_full|]. intros s ->. auto.
  - eexists. split; [apply null_prov|]. split; [apply null_full|]. split; [auto|discriminate].
  - eexists. split; [apply pad_prov|]. split; [apply pad_full|]. intros s [b ->]. auto.
  - eexists. split; [apply mono_prov|]. split; [apply mono_full|]. split; [auto|discriminate].
  - eexists. split; [apply mono_all_prov; auto|]. split; [apply mono_full|]. intros s ->. auto.
  - eapply full_sub with (D := copy_decoder vec_box); cbn; auto.
    + intros s s' j. destruct (copy_finish vec_box s) as [t [i| | |]]; try discriminate. intros [= <- <-]. eauto.
    + eexists. split; [apply copy_prov, vec_box_ok|]. split; [apply copy_full, vec_box_ok|]. split; [auto|discriminate].
  - eapply full_sub; [| | | |eassumption]; cbn; auto.
    intros s s' j. destruct (dec_finish D s) as [t [i| | |]]; cbn; try discriminate. destruct (str_from_utf8 i); try discriminate.
    intros [= <- <-]. eauto.
  - eapply full_sub; [| | | |eassumption]; cbn; auto.
    intros s s' j. destruct (dec_finish D s) as [t [i| | |]]; try discriminate. intros [= <- <-]. eauto.
  - eapply full_sub; [| | | |eassumption]; cbn; auto.
    intros s s' j. destruct (dec_finish D s) as [t [i| | |]]; cbn; try discriminate. destruct (f i); try discriminate. intros [= <- <-]. eauto.
  - eapply full_sub; [| | | |eassumption]; cbn; auto.
    + intros fuel s buf e s' n. destruct (dec_decode D fuel s buf e) as [s1 [k| | |]]; cbn; try discriminate. auto.
    + intros s s' j. destruct (dec_finish D s) as [t [i| | |]]; cbn; try discriminate. intros [= <- <-]. eauto.
  - destruct IHfrugal1 as (L0 & P0 & F0 & Q0), IHfrugal2 as (L1 & P1 & F1 & Q1).
    eexists. split; [eapply and_then_prov; eauto|]. split; [eapply and_then_full; eauto; intro; apply Q1; auto|].
    intros st (s & Z & ->). cbn. split; auto. split; [apply Q0|]; auto.
  - destruct IHfrugal as (L & P & F & Q). eexists. split; [eapply omit_prov; eauto|]. split; [eapply omit_full; eauto|].
    intros st Z. split; [now apply Q|discriminate].
  - destruct IHfrugal as (L & P & F & Q). eexists. split; [eapply collect_prov; eauto|]. split; [eapply collect_full; eauto|].
    intros st (s & Z & ->). split; [now apply Q|auto].
  - destruct IHfrugal as (L & P & F & Q). eexists. split; [eapply collectn_prov; eauto|]. split; [eapply collectn_full; eauto|].
    intros st (s & n & Z & ->). split; [now apply Q|discriminate].
  - destruct IHfrugal as (L & P & F & Q). eexists. split; [eapply length_prov; eauto|]. split; [eapply length_full; eauto|].
    intros st (s & n & Z & ->).
    destruct (Q _ Z) as [Q1 Q2]. cbn. split; [split; auto|discriminate]. rewrite Q2; [discriminate|auto].
  - destruct IHfrugal as (L & P & F & Q). eexists. split; [eapply max_prov; eauto|]. split; [eapply max_full; eauto|].
    intros st Z. now apply Q.
  - destruct IHfrugal as (L & P & F & Q). eexists. split; [eapply peek_prov; eauto|]. split; [eapply peek_full; eauto|].
    intros st (s & Z & ->). split; [now apply Q|discriminate].
  - destruct IHfrugal as (L & P & F & Q). eexists. split; [eapply maybe_prov; eauto|]. split; [eapply maybe_full; eauto|].
    intros st Z. split; [now apply Q|discriminate].
  - destruct IHfrugal1 as (L0 & P0 & F0 & Q0), IHfrugal2 as (L1 & P1 & F1 & Q1).
    assert (XQ : forall (s : S0 * S1) n0 n1, within (dec_req D0 (fst s)) n0 -> within (dec_req D1 (snd s)) n1 ->
              within (dec_req (tuple2_decoder D0 D1) s) (n0 + n1)).
    { intros [s0 s1] n0 n1 A B. cbn -[add_for_decoding] in *. apply within_zero in A.
      pose proof (within_add _ _ _ _ A B) as C. destruct (dec_req D0 s0); auto. }
    eexists. split; [eapply (pair_prov P0 P1); auto|split; [eapply (pair_full P0 P1); auto|]].
    + intros [s0 s1] A B. cbn -[add_for_decoding] in *. now rewrite A, B.
    + intros [s0 s1] [Z0 Z1]. cbn in *. destruct (Q1 _ Z1) as [Q2 Q3], (Q0 _ Z0) as [Q4 _].
      assert (N : l0 && h1 = true -> dec_idle D1 s1 = false) by (intros T; apply andb_prop in T as [_ T]; auto).
      repeat split; auto.
      * intros T. rewrite N; [discriminate|auto].
      * intros T. rewrite N; [apply andb_false_r|auto].
  - destruct IHfrugal1 as (L0 & P0 & F0 & Q0), IHfrugal2 as (L1 & P1 & F1 & Q1).
    destruct (tuple_snoc_eq D1 H) as (A & B & _ & C).
    assert (XQ : forall (s : S0 * S1) n0 n1, within (dec_req (tuple_of_dec_parts P) (fst s)) n0 -> within (dec_req D1 (snd s)) n1 ->
              within (dec_req (tuple_of_dec_parts (dp_snoc P D1)) s) (n0 + n1)).
    { intros [s0 s1] n0 n1 X Y. cbn -[add_for_decoding] in *. now apply within_add. }
    eexists. split; [eapply (pair_prov P0 P1); auto|split; [eapply (pair_full P0 P1); auto|]].
    + intros [s0 s1] X Y. cbn -[add_for_decoding] in *. now rewrite X, Y.
    + intros [s0 s1] [Z0 Z1]. cbn in *. destruct (Q1 _ Z1) as [Q2 Q3], (Q0 _ Z0) as [Q4 _].
      assert (N : l0 && h1 = true -> dec_idle D1 s1 = false) by (intros T; apply andb_prop in T as [_ T]; auto).
      repeat split; auto.
      * intros T. rewrite N; [discriminate|auto].
      * intros T. rewrite N; [apply andb_false_r|auto].
Qed.
