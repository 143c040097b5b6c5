(** * Proofs for C71 and C72. *)
From Coq Require Import Lia ZifyBool ZifyNat ZifyN.
From Verif Require Export Eager.
Set Implicit Arguments.

(** ** [takes_all] and [ends_at_eos] *)
Definition greedy {S I} (D : Decoder S I) (b : bool) : Prop :=
  takes_all D /\ (b = true -> ends_at_eos D).
Section Try.
Context {S I : Type} (D : Decoder S I) (H : takes_all D).
Lemma try_takes : forall fuel s off buf e, off <= length buf ->
  match try_decode D fuel s off buf e with
  | TGo s' o => off <= o <= length buf
  | TRet s' (Ok o) => o = length buf
  | _ => True
  end.
Proof.
  intros fuel s off buf e L. unfold try_decode. destruct (dec_idle D s); [lia|].
  unfold slice_from. destruct (Nat.leb_spec off (length buf)); [|lia].
  destruct (dec_decode D fuel s (skipn off buf) e) as [s1 [n| | |]] eqn:X; auto.
  apply H in X. rewrite skipn_length in X. destruct X as [X1 X2].
  destruct (dec_idle D s1); [lia|]. specialize (X2 eq_refl). lia.
Qed.
Lemma try_ends : ends_at_eos D -> forall fuel s off buf e s' o, is_reached e = true ->
  try_decode D fuel s off buf e <> TRet s' (Ok o).
Proof.
  intros L fuel s off buf e s' o R. unfold try_decode. destruct (dec_idle D s); [discriminate|].
  destruct (slice_from off buf); [|discriminate].
  destruct (dec_decode D fuel s l e) as [s1 [n| | |]] eqn:X; try discriminate.
  rewrite (L _ _ _ _ _ _ X R). discriminate.
Qed.
End Try.
Lemma greedy_sub : forall S I J (D : Decoder S I) (D' : Decoder S J) b,
  (forall fuel s buf e s' n, dec_decode D' fuel s buf e = (s', Ok n) -> dec_decode D fuel s buf e = (s', Ok n)) ->
  (forall s, dec_idle D' s = dec_idle D s) -> greedy D b -> greedy D' b.
Proof.
  intros S I J D D' b A B [H1 H2]. split.
  - intros fuel s buf e s' n X. rewrite B. apply A in X. eapply H1; eauto.
  - intros T fuel s buf e s' n X. rewrite B. apply A in X. eapply (H2 T); eauto.
Qed.
Lemma copy_greedy : forall B (BX : ByteBox B), box_ok BX -> greedy (copy_decoder BX) true.
Proof.
  intros B BX OK. assert (G : forall fuel s buf e s' n, dec_decode (copy_decoder BX) fuel s buf e = (s', Ok n) ->
    n <= length buf /\ (n < length buf -> dec_idle (copy_decoder BX) s' = true) /\
    (is_reached e = true -> dec_idle (copy_decoder BX) s' = true)).
  { intros fuel [b o] buf e s' n. cbn -[overwrite]. unfold copy_decode. cbn -[overwrite]. unfold usize_sub.
    destruct (Nat.leb_spec o (length (bx_ref BX b))); [|discriminate].
    set (k := Nat.min (length buf) (length (bx_ref BX b) - o)).
    assert (LK : length (firstn k buf) = k) by (rewrite firstn_length; lia).
    rewrite !(box_get_put OK) by (apply overwrite_length; lia). rewrite overwrite_length by lia.
    destruct (negb (o + k =? length (bx_ref BX b)) && is_reached e) eqn:Q; [discriminate|]. intros E; injection E as <- <-; cbn -[overwrite].
    rewrite !(box_get_put OK) by (apply overwrite_length; lia). rewrite overwrite_length by lia.
    split; [lia|split; lia]. }
  split.
  - intros fuel s buf e s' n X. destruct (G _ _ _ _ _ _ X) as (G1 & G2 & _). split; auto. intros id.
    destruct (Nat.lt_ge_cases n (length buf)) as [Z|Z]; [|lia]. rewrite G2 in id by auto. discriminate.
  - intros _ fuel s buf e s' n X R. destruct (G _ _ _ _ _ _ X) as (_ & _ & G3). auto.
Qed.
Lemma bytes_greedy : forall B (BX : ByteBox B), box_ok BX -> greedy (bytes_decoder BX) true.
Proof.
  intros B BX OK. assert (G : forall fuel s buf e s' n, dec_decode (bytes_decoder BX) fuel s buf e = (s', Ok n) ->
    n <= length buf /\ (n < length buf -> dec_idle (bytes_decoder BX) s' = true) /\
    (is_reached e = true -> dec_idle (bytes_decoder BX) s' = true)).
  { intros fuel [[b|] o] buf e s' n; cbn -[overwrite]; unfold bytes_decode, bytes_dec_exact; cbn -[overwrite]; [|discriminate]. unfold usize_sub.
    destruct (Nat.leb_spec o (length (bx_ref BX b))); [|discriminate].
    set (k := Nat.min (length buf) (length (bx_ref BX b) - o)).
    assert (LK : length (firstn k buf) = k) by (rewrite firstn_length; lia).
    rewrite !(box_get_put OK) by (apply overwrite_length; lia). rewrite overwrite_length by lia.
    destruct (negb (length (bx_ref BX b) - (o + k) =? 0) && is_reached e) eqn:Q; [discriminate|]. intros E; injection E as <- <-; cbn -[overwrite].
    rewrite !(box_get_put OK) by (apply overwrite_length; lia). rewrite overwrite_length by lia.
    split; [lia|split; lia]. }
  split.
  - intros fuel s buf e s' n X. destruct (G _ _ _ _ _ _ X) as (G1 & G2 & _). split; auto. intros id.
    destruct (Nat.lt_ge_cases n (length buf)) as [Z|Z]; [|lia]. rewrite G2 in id by auto. discriminate.
  - intros _ fuel s buf e s' n X R. destruct (G _ _ _ _ _ _ X) as (_ & _ & G3). auto.
Qed.
Lemma rem_greedy : greedy rem_decoder true.
Proof.
  split; [|intros _]; intros fuel [b [|]] buf e s' n; cbn; unfold rem_decode; cbn.
  1,3: intros [= <- <-]; cbn; auto with arith. 1: { split; [lia|discriminate]. }
  all: destruct (bc_to_u64 _); [destruct (_ <=? _)%N; [|discriminate]|]; intros [= <- <-]; cbn; auto.
Qed.
Lemma pad_greedy : greedy pad_decoder true.
Proof.
  split; [|intros _]; intros fuel [x [|]] buf e s' n; cbn; unfold pad_decode; cbn.
  1,3: intros [= <- <-]; cbn; auto with arith. 1: { split; [lia|discriminate]. }
  all: destruct x; [destruct (forallb _ _); [|discriminate]|]; intros [= <- <-]; cbn; auto.
Qed.
Lemma mono_greedy : forall I (f : MonoDecode I), greedy (mono_decoder f) true.
Proof.
  intros I f. split; [|intros _]; intros fuel [o b] buf e s' n; cbn; unfold mono_decode; cbn;
    (destruct (is_reached e); [destruct (f (b ++ buf)) as [[i|k] rd]; [|discriminate]|]); intros [= <- <-]; cbn; auto.
  - split; [lia|discriminate].
  - discriminate.
Qed.
Section One.
Context {S I : Type} (D : Decoder S I) (b : bool) (H : greedy D b).
Lemma omit_greedy : greedy (omit_decoder D) b.
Proof.
  destruct H as [H1 H2]. split; [|intros T]; intros fuel [s [|]] buf e s' n; cbn.
  - intros [= <- <-]. cbn. split; [lia|discriminate].
  - destruct (dec_decode D fuel s buf e) as [s1 r] eqn:X. intros [= <- ->]. eapply H1; eauto.
  - intros [= <- <-]. reflexivity.
  - destruct (dec_decode D fuel s buf e) as [s1 r] eqn:X. intros [= <- ->]. eapply (H2 T); eauto.
Qed.
Lemma collect_loop_greedy : forall k fuel s items off buf e s' n, off <= length buf ->
  collect_loop D k fuel s items off buf e = (s', Ok n) ->
  n = length buf /\ (b = true -> is_reached e = true -> cl_eos s' = true).
Proof.
  destruct H as [H1 H2]. induction k as [|k IH]; intros fuel s items off buf e s' n L; cbn [collect_loop].
  { destruct (Nat.ltb_spec off (length buf)); [discriminate|]. intros [= <- <-]. cbn. auto with arith. }
  destruct (Nat.ltb_spec off (length buf)).
  2: { intros [= <- <-]. cbn. split; [lia|auto]. }
  pose proof (try_takes H1 fuel s buf e L) as T. destruct (try_decode D fuel s off buf e) as [s1 o|s1 r] eqn:X.
  - destruct (dec_finish D s1) as [s2 [i| | |]]; try discriminate. apply IH. lia.
  - intros [= <- ->]. cbn. split; auto. intros B R. now apply (try_ends (H2 B)) in X.
Qed.
Lemma collect_greedy : greedy (collect_decoder D) b.
Proof.
  split; [|intros T]; intros fuel [s its [|]] buf e s' n; cbn.
  1,3: intros [= <- <-]; cbn; auto. 1: { split; [lia|discriminate]. }
  all: intros X; eapply collect_loop_greedy in X; try lia; destruct X as [-> X]; auto.
Qed.
Lemma collectn_loop_greedy : forall fuel rem s items off buf e s' n, off <= length buf ->
  collectn_loop D fuel rem s items off buf e = (s', Ok n) ->
  n <= length buf /\ (cn_remaining s' <> 0 -> n = length buf) /\
  (b = true -> is_reached e = true -> cn_remaining s' = 0).
Proof.
  destruct H as [H1 H2]. intros fuel. induction rem as [|rem IH]; intros s items off buf e s' n L; cbn [collectn_loop].
  { cbn. intros [= <- <-]. cbn. repeat split; auto; lia. }
  destruct (Nat.ltb_spec off (length buf)).
  2: { cbn. destruct (is_reached e) eqn:R; [discriminate|]. intros [= <- <-]. cbn. split; [lia|]. split; [lia|discriminate]. }
  pose proof (try_takes H1 fuel s buf e L) as T. destruct (try_decode D fuel s off buf e) as [s1 o|s1 r] eqn:X.
  - destruct (dec_finish D s1) as [s2 [i| | |]]; try discriminate. apply IH. lia.
  - intros [= <- ->]. cbn. split; [lia|]. split; auto. intros B R. now apply (try_ends (H2 B)) in X.
Qed.
Lemma collectn_greedy : greedy (collectn_decoder D) b.
Proof.
  split; [|intros T]; intros fuel [s rm its] buf e s' n X; cbn in *; apply collectn_loop_greedy in X; lia.
Qed.
Lemma max_greedy : greedy (max_decoder D) b.
Proof.
  destruct H as [H1 H2]. split; [|intros T]; intros fuel [s c mx] buf e s' n; cbn; unfold max_decode; cbn;
    (destruct (max_check _ _ _); try discriminate; destruct (dec_decode D fuel s buf e) as [s1 [k| | |]] eqn:X; try discriminate;
     destruct (u64_add _ _); [|discriminate]; intros [= <- <-]; cbn).
  - eapply H1; eauto.
  - eapply (H2 T); eauto.
Qed.
Lemma peek_greedy : greedy (peek_decoder D) b.
Proof.
  destruct H as [H1 H2]. split; [|intros T]; intros fuel [s [i|]] buf e s' n; cbn; unfold peek_decode; cbn.
  1,3: intros [= <- <-]; cbn; auto. 1: { split; [lia|discriminate]. }
  - destruct (dec_decode D fuel s buf e) as [s1 [k| | |]] eqn:X; try discriminate. apply H1 in X.
    destruct (dec_idle D s1); [destruct (dec_finish D s1) as [s2 [i| | |]]; try discriminate|]; intros [= <- <-]; cbn.
    + split; [lia|discriminate]. 
    + split; [lia|]. intros _. now apply X.
  - destruct (dec_decode D fuel s buf e) as [s1 [k| | |]] eqn:X; try discriminate.
    destruct (dec_idle D s1) eqn:id; [destruct (dec_finish D s1) as [s2 [i| | |]]; try discriminate|]; intros [= <- <-] R; cbn; auto.
    rewrite (H2 T _ _ _ _ _ _ X R) in id. discriminate.
Qed.
Lemma maybe_greedy : greedy (maybe_decoder D) false.
Proof.
  destruct H as [H1 H2]. split; [|discriminate]; intros fuel [s st] buf e s' n; cbn; unfold maybe_decode; cbn.
  match goal with |- context [dec_decode D fuel s buf ?q] => destruct (dec_decode D fuel s buf q) as [s1 [k| | |]] eqn:X end;
    try discriminate. intros [= <- <-]. cbn. eapply H1; eauto.
Qed.
Lemma length_greedy : b = true -> greedy (length_decoder D) false.
Proof.
  intros B. destruct H as [H1 H2]. split; [|discriminate]. intros fuel [s ex rm] buf e s' n X. cbn in *.
  unfold length_decode in X. cbn [ln_inner ln_expected ln_remaining] in X. cbv zeta in X.
  set (limit := N.min (len buf) rm) in *.
  assert (Y : exists s1, dec_decode D fuel s (firstn (N.to_nat limit) buf) (eos_with_remaining (Finite (rm - limit))) = (s1, Ok n)
     /\ ln_inner s' = s1).
  { destruct (dec_decode D fuel s _ _) as [s1 r]; exists s1.
    destruct (bc_to_u64 _) as [q|]; [destruct (u64_add _ _); [destruct (_ <=? _)%N; [|discriminate]|discriminate]|];
      destruct r; try discriminate; destruct (u64_sub _ _); try discriminate; injection X as <- <-; auto. }
  destruct Y as (s1 & Y & ->). pose proof (H1 _ _ _ _ _ _ Y) as [Y1 Y2]. rewrite firstn_length in *.
  split; [lia|]. intros id. rewrite (Y2 id). unfold limit in *. destruct (N.leb_spec (len buf) rm); [unfold len in *; lia|].
  rewrite (H2 B _ _ _ _ _ _ Y) in id; [discriminate|]. unfold is_reached, eos_with_remaining.
  replace (rm - N.min (len buf) rm)%N with 0%N by lia. reflexivity.
Qed.
End One.
Section Two.
Context {S0 S1 I0 I1 : Type} (D0 : Decoder S0 I0) (D1 : Decoder S1 I1) (b0 b1 : bool)
  (H0 : greedy D0 b0) (H1 : greedy D1 b1).
Lemma and_then_greedy : forall f, greedy (and_then_decoder D0 D1 f) (b0 && b1).
Proof.
  intros f. destruct H0 as [A0 B0], H1 as [A1 B1].
  assert (BD : forall fuel s0 s1 off buf e s' n, off <= length buf ->
    and_then_body D1 fuel (s0 : S0) s1 off buf e = (s', Ok n) ->
    n <= length buf /\ (dec_idle (and_then_decoder D0 D1 f) s' = false -> n = length buf) /\
    (b1 = true -> is_reached e = true -> dec_idle (and_then_decoder D0 D1 f) s' = true)).
  { intros fuel s0 s1 off buf e s' n L. unfold and_then_body.
    pose proof (try_takes A1 fuel s1 buf e L) as T. destruct (try_decode D1 fuel s1 off buf e) as [t o|t r] eqn:X; intros [= <- E]; cbn.
    - apply try_decode_go in X. rewrite X. split; [lia|]. split; [discriminate|auto].
    - subst r. split; [lia|]. split; [auto|]. intros B R. now apply (try_ends (B1 B)) in X. }
  assert (G : forall fuel s buf e s' n, and_then_decode D0 D1 f fuel s buf e = (s', Ok n) ->
    n <= length buf /\ (dec_idle (and_then_decoder D0 D1 f) s' = false -> n = length buf) /\
    (b0 = true -> b1 = true -> is_reached e = true -> dec_idle (and_then_decoder D0 D1 f) s' = true)).
  { intros fuel [s0 [s1|]] buf e s' n; unfold and_then_decode; cbn [at_inner0 at_inner1].
    - intros X. apply BD in X; [|lia]. intuition.
    - pose proof (try_takes A0 fuel s0 buf e (Nat.le_0_l (length buf))) as T.
      destruct (try_decode D0 fuel s0 0 buf e) as [t o|t r] eqn:X.
      + destruct (dec_finish D0 t) as [t' [i| | |]]; try discriminate. intros Y. apply BD in Y; [|lia]. intuition.
      + intros [= <- ->]. cbn. split; [lia|]. split; [auto|]. intros B _ R. now apply (try_ends (B0 B)) in X. }
  split.
  - intros fuel s buf e s' n X. apply G in X. intuition.
  - intros T fuel s buf e s' n X R. apply andb_prop in T as [T0 T1]. apply G in X. now apply X.
Qed.
Lemma pair_greedy : greedy (tuple2_decoder D0 D1) (b0 && b1).
Proof.
  destruct H0 as [A0 B0], H1 as [A1 B1].
  assert (G : forall fuel s buf e s' n, dec_decode (tuple2_decoder D0 D1) fuel s buf e = (s', Ok n) ->
    n <= length buf /\ (dec_idle (tuple2_decoder D0 D1) s' = false -> n = length buf) /\
    (b0 = true -> b1 = true -> is_reached e = true -> dec_idle (tuple2_decoder D0 D1) s' = true)).
  { intros fuel [s0 s1] buf e s' n.
    unfold tuple2_decoder, tuple_of_dec_parts, dec_decode, dec_parts2, dp_snoc, dp_decode, dp_one, dec_idle, dp_idle. cbn [fst snd].
    pose proof (try_takes A0 fuel s0 buf e (Nat.le_0_l (length buf))) as T.
    destruct (try_decode D0 fuel s0 0 buf e) as [t o|t r] eqn:X.
    - pose proof (try_takes A1 fuel s1 buf e (proj2 T)) as T1.
      destruct (try_decode D1 fuel s1 o buf e) as [t1 o1|t1 r1] eqn:X1; intros [= <- E]; cbn [fst snd].
      + apply try_decode_go in X, X1. unfold dec_idle in X, X1. rewrite X, X1. split; [lia|]. split; [discriminate|auto].
      + subst r1. split; [lia|]. split; [auto|]. intros _ B R. now apply (try_ends (B1 B)) in X1.
    - intros [= <- ->]. cbn. split; [lia|]. split; [auto|]. intros B _ R. now apply (try_ends (B0 B)) in X. }
  split.
  - intros fuel s buf e s' n X. apply G in X. intuition.
  - intros T fuel s buf e s' n X R. apply andb_prop in T as [T0 T1]. apply G in X. now apply X.
Qed.
End Two.
Lemma eager_greedy : forall S I (D : Decoder S I) b, eager D b -> greedy D b.
Proof.
  induction 1; auto using copy_greedy, bytes_greedy, rem_greedy, pad_greedy, mono_greedy, omit_greedy, collect_greedy,
    collectn_greedy, max_greedy, peek_greedy, and_then_greedy, pair_greedy; try (eapply greedy_sub; [| |eassumption]; cbn; auto; fail).
  - split; [|intros _]; intros fuel s buf e s' n; cbn; intros [= <- <-]; [split; [lia|discriminate]|auto].
  - eapply greedy_sub; [| |apply (copy_greedy vec_box_ok)]; cbn; auto.
  - eapply greedy_sub; [| |eassumption]; cbn; auto.
    intros fuel s buf e s' n. destruct (dec_decode D fuel s buf e) as [s1 [k| | |]]; cbn; try discriminate. auto.
  - eapply length_greedy; eauto.
  - eapply maybe_greedy; eauto.
  - destruct (tuple_snoc_eq D1 H) as (A & _ & _ & C). eapply greedy_sub; [| |apply (pair_greedy IHeager1 IHeager2)].
    + intros fuel s buf e s' n. rewrite <- A. auto.
    + intros s. now rewrite <- C.
Qed.

(** ** [requiring_bytes] is a lower bound *)
Definition gentle (m : bool) (e : Eos) (buf : list byte) : Prop := m = true \/ is_reached e = false \/ buf = [].
Record provident {S I} (D : Decoder S I) (m l h : bool) (L : S -> Prop) : Prop := {
  pv_decode : forall fuel s buf e s' n, L s -> dec_decode D fuel s buf e = (s', Ok n) -> L s';
  pv_finish : forall s s' i, L s -> dec_finish D s = (s', Ok i) -> L s' /\ (h = true -> dec_idle D s' = false);
  pv_idle : forall s, L s -> dec_idle D s = true -> dec_req D s = Ok (Finite 0);
  pv_take : forall fuel s buf e s' n, L s -> gentle m e buf -> dec_decode D fuel s buf e = (s', Ok n) ->
    n <= length buf /\ (n = length buf \/ dec_idle D s' = true /\ within (dec_req D s) n);
  pv_loud : forall fuel s buf e s' n, l || h = true -> L s -> is_reached e = true ->
    dec_decode D fuel s buf e = (s', Ok n) -> dec_idle D s' = true;
  pv_hungry : forall fuel s buf e s' n, h = true -> L s -> dec_idle D s = false ->
    dec_decode D fuel s buf e = (s', Ok n) ->
    (gentle m e buf -> n = length buf) /\ (dec_idle D s' = true -> is_reached e = true);
  pv_stay : forall fuel s buf e s' n, h = true -> L s -> dec_idle D s = true ->
    dec_decode D fuel s buf e = (s', Ok n) -> dec_idle D s' = true
}.
Definition frugal_ok {S I} (D : Decoder S I) (m l h : bool) (Init : S -> Prop) : Prop :=
  exists L, provident D m l h L /\ forall s, Init s -> L s /\ (h = true -> dec_idle D s = false).

Lemma within_le : forall q n n', within q n -> n <= n' -> within q n'.
Proof. intros [[k| |]| | |] n n'; cbn; auto; lia. Qed.
Lemma gentle_skip : forall m e buf k, gentle m e buf -> gentle m e (skipn k buf).
Proof. unfold gentle. intros m e buf k [H|[H| ->]]; auto. right; right. now destruct k. Qed.

Section PTry.
Context {S I : Type} (D : Decoder S I) (m l h : bool) (L : S -> Prop) (H : provident D m l h L).
Lemma try_L : forall fuel s off buf e, L s ->
  match try_decode D fuel s off buf e with
  | TGo s' o => L s' /\ dec_idle D s' = true /\ (h = true -> dec_idle D s = false -> is_reached e = true)
  | TRet s' (Ok o) => L s' /\ dec_idle D s = false /\ dec_idle D s' = false /\ (l || h = true -> is_reached e = false)
  | _ => True
  end.
Proof.
  intros fuel s off buf e Ls. unfold try_decode. destruct (dec_idle D s) eqn:i0; [repeat split; auto; congruence|].
  destruct (slice_from off buf) as [b|]; [|auto].
  destruct (dec_decode D fuel s b e) as [s1 [n| | |]] eqn:X; auto.
  pose proof (pv_decode H _ _ _ _ Ls X). destruct (dec_idle D s1) eqn:i1; repeat split; auto.
  - intros T _. exact (proj2 (pv_hungry H _ _ _ _ T Ls i0 X) i1).
  - intros T. destruct (is_reached e) eqn:R; auto. rewrite (pv_loud H _ _ _ _ T Ls R X) in i1. discriminate.
Qed.
Lemma try_n : forall fuel s off buf e, L s -> off <= length buf -> gentle m e (skipn off buf) ->
  match try_decode D fuel s off buf e with
  | TGo s' o => off <= o <= length buf /\ (o = length buf \/ within (dec_req D s) (o - off)) /\
      (h = true -> dec_idle D s = false -> o = length buf)
  | TRet s' (Ok o) => o = length buf
  | _ => True
  end.
Proof.
  intros fuel s off buf e Ls LE G. unfold try_decode. destruct (dec_idle D s) eqn:i0.
  { split; [lia|]. split; [|congruence]. right. rewrite (pv_idle H _ Ls i0). cbn. lia. }
  unfold slice_from. destruct (Nat.leb_spec off (length buf)); [|lia].
  destruct (dec_decode D fuel s (skipn off buf) e) as [s1 [n| | |]] eqn:X; auto.
  pose proof (pv_take H _ _ Ls G X) as T. rewrite skipn_length in T.
  destruct (dec_idle D s1) eqn:i1.
  - split; [lia|]. split.
    + destruct T as (T1 & [T2|[_ T2]]); [left; lia|right]. now replace (off + n - off) with n by lia.
    + intros T0 _. pose proof (pv_hungry H _ _ _ _ T0 Ls i0 X) as [T3 _]. rewrite skipn_length in T3. specialize (T3 G). lia.
  - destruct T as (T1 & [T2|[T2 _]]); [lia|discriminate].
Qed.
End PTry.
Arguments try_L {S I D m l h L} H fuel s off buf e _.
Arguments try_n {S I D m l h L} H fuel s off buf e _ _ _.
Lemma provident_sub : forall S I J (D : Decoder S I) (D' : Decoder S J) m l h L,
  (forall fuel s buf e s' n, dec_decode D' fuel s buf e = (s', Ok n) -> dec_decode D fuel s buf e = (s', Ok n)) ->
  (forall s s' j, dec_finish D' s = (s', Ok j) -> exists i, dec_finish D s = (s', Ok i)) ->
  (forall s, dec_req D' s = dec_req D s) ->
  (forall s, dec_idle D' s = dec_idle D s) -> provident D m l h L -> provident D' m l h L.
Proof.
  intros S I J D D' m l h L A F Q B [H1 H2 H3 H4 H5 H6 H7]. split; intros; rewrite ?B, ?Q in *; eauto.
  match goal with X : dec_finish D' _ = _ |- _ => destruct (F _ _ _ X) as [i0 Y] end.
  eapply H2; eauto.
Qed.
Lemma frugal_sub : forall S I J (D : Decoder S I) (D' : Decoder S J) m l h L,
  (forall fuel s buf e s' n, dec_decode D' fuel s buf e = (s', Ok n) -> dec_decode D fuel s buf e = (s', Ok n)) ->
  (forall s s' j, dec_finish D' s = (s', Ok j) -> exists i, dec_finish D s = (s', Ok i)) ->
  (forall s, dec_req D' s = dec_req D s) ->
  (forall s, dec_idle D' s = dec_idle D s) -> frugal_ok D m l h L -> frugal_ok D' m l h L.
Proof.
  intros S I J D D' m l h Init A F Q B (L & P & H). exists L. split; [eapply provident_sub; eauto|].
  intros s. rewrite B. auto.
Qed.
Lemma copy_prov : forall B (BX : ByteBox B), box_ok BX -> provident (copy_decoder BX) true true false (fun _ => True).
Proof.
  intros B BX OK. pose proof (copy_greedy OK) as [A1 A2]. split; cbv beta; try (intros; discriminate); try (intros; split; [now auto|intros Z; discriminate Z]); auto.
  - intros [b o] _. cbn. intros E. unfold usize_sub. destruct (Nat.leb_spec o (length (bx_ref BX b))); [|lia].
    do 2 f_equal. lia.
  - intros fuel s buf e s' n _ _ X. destruct (A1 _ _ _ _ _ _ X) as [X1 X2]. split; auto.
    destruct (dec_idle (copy_decoder BX) s') eqn:id; auto. right. split; auto.
    destruct s as [b o]. cbn -[overwrite] in *. unfold copy_decode in X. cbn -[overwrite] in X. unfold usize_sub in *.
    destruct (Nat.leb_spec o (length (bx_ref BX b))); [|discriminate].
    set (k := Nat.min (length buf) (length (bx_ref BX b) - o)) in *.
    assert (LK : length (firstn k buf) = k) by (rewrite firstn_length; lia).
    rewrite !(box_get_put OK) in X by (apply overwrite_length; lia). rewrite overwrite_length in X by lia.
    destruct (_ && _); [discriminate|]. injection X as <- <-. cbn -[overwrite] in id.
    rewrite !(box_get_put OK) in id by (apply overwrite_length; lia). rewrite overwrite_length in id by lia. cbn. lia.
  - intros fuel s buf e s' n _ _ R X. eapply A2; eauto.
Qed.
Lemma bytes_prov : forall B (BX : ByteBox B), box_ok BX ->
  provident (bytes_decoder BX) true true false
    (fun s => match bd_bytes s with Some b => bd_off s <= length (bx_ref BX b) | None => True end).
Proof.
  intros B BX OK. pose proof (bytes_greedy OK) as [A1 A2]. split; cbv beta; try (intros; discriminate); try (intros; split; [now auto|intros Z; discriminate Z]).
  - intros fuel [[b|] o] buf e s' n; cbn -[overwrite]; unfold bytes_decode; cbn -[overwrite]; [|discriminate]. intros LE. unfold usize_sub.
    destruct (Nat.leb_spec o (length (bx_ref BX b))); [|discriminate].
    set (k := Nat.min (length buf) (length (bx_ref BX b) - o)) in *.
    assert (LK : length (firstn k buf) = k) by (rewrite firstn_length; lia).
    destruct (_ && _); [discriminate|]. intros X; injection X as <- <-; cbn -[overwrite].
    rewrite !(box_get_put OK) by (apply overwrite_length; lia). rewrite overwrite_length by lia. lia.
  - intros [[b|] o] s' i; cbn; unfold bytes_finish; cbn; (destruct (_ =? 0); [|discriminate]); [|discriminate].
    intros _ [= <- <-]. cbn. split; [auto|discriminate].
  - intros [[b|] o]; cbn; unfold bytes_dec_exact; cbn; auto. intros LE E. unfold usize_sub.
    destruct (Nat.leb_spec o (length (bx_ref BX b))); [|lia]. do 2 f_equal. lia.
  - intros fuel s buf e s' n LE _ X. destruct (A1 _ _ _ _ _ _ X) as [X1 X2]. split; auto.
    destruct (dec_idle (bytes_decoder BX) s') eqn:id; auto. right. split; auto.
    destruct s as [[b|] o]; cbn -[overwrite] in *; unfold bytes_decode in X; cbn -[overwrite] in X; [|discriminate]. unfold usize_sub in *.
    destruct (Nat.leb_spec o (length (bx_ref BX b))); [|discriminate].
    set (k := Nat.min (length buf) (length (bx_ref BX b) - o)) in *.
    assert (LK : length (firstn k buf) = k) by (rewrite firstn_length; lia).
    destruct (_ && _); [discriminate|]. injection X as <- <-. unfold bytes_dec_exact in id. cbn -[overwrite] in id.
    rewrite !(box_get_put OK) in id by (apply overwrite_length; lia). rewrite overwrite_length in id by lia. cbn. lia.
  - intros fuel s buf e s' n _ _ R X. eapply A2; eauto.
Qed.
Lemma rem_prov : provident rem_decoder true true true (fun _ => True).
Proof.
  split; cbv beta; auto.
  - intros [b [|]] s' i _; cbn; unfold rem_finish; cbn; [|discriminate]. intros [= <- <-]. auto.
  - intros [b e] _. cbn. intros ->. reflexivity.
  - intros fuel [b [|]] buf e s' n _ _; cbn; unfold rem_decode; cbn.
    + intros [= <- <-]. cbn. split; [lia|]. right. split; [auto|lia].
    + destruct (bc_to_u64 _); [destruct (_ <=? _)%N; [|discriminate]|]; intros [= <- <-]; auto.
  - intros fuel [b [|]] buf e s' n _ _ R; cbn; unfold rem_decode; cbn.
    + intros [= <- <-]. auto.
    + destruct (bc_to_u64 _); [destruct (_ <=? _)%N; [|discriminate]|]; intros [= <- <-]; auto.
  - intros fuel [b x] buf e s' n _ _; cbn; unfold rem_decode; cbn. intros ->.
    destruct (bc_to_u64 _); [destruct (_ <=? _)%N; [|discriminate]|]; intros [= <- <-]; auto.
  - intros fuel [b x] buf e s' n _ _; cbn; unfold rem_decode; cbn. intros ->. intros [= <- <-]. auto.
Qed.
Lemma pad_prov : provident pad_decoder true true true (fun _ => True).
Proof.
  split; cbv beta; auto.
  - intros [b [|]] s' i _; cbn; [|discriminate]. intros [= <- <-]. auto.
  - intros [b e] _. cbn. intros ->. reflexivity.
  - intros fuel [b [|]] buf e s' n _ _; cbn; unfold pad_decode; cbn.
    + intros [= <- <-]. cbn. split; [lia|]. right. split; [auto|lia].
    + destruct b; [destruct (forallb _ _); [|discriminate]|]; intros [= <- <-]; auto.
  - intros fuel [b [|]] buf e s' n _ _ R; cbn; unfold pad_decode; cbn.
    + intros [= <- <-]. auto.
    + destruct b; [destruct (forallb _ _); [|discriminate]|]; intros [= <- <-]; auto.
  - intros fuel [b x] buf e s' n _ _; cbn; unfold pad_decode; cbn. intros ->.
    destruct b; [destruct (forallb _ _); [|discriminate]|]; intros [= <- <-]; auto.
  - intros fuel [b x] buf e s' n _ _; cbn; unfold pad_decode; cbn. intros ->. intros [= <- <-]. auto.
Qed.
Lemma mono_prov : forall I (f : MonoDecode I), provident (mono_decoder f) false true false (fun _ => True).
Proof.
  intros I f. split; cbv beta; auto; try (intros; discriminate); try (intros; split; [now auto|intros Z; discriminate Z]).
  - intros [[i|] b] _; cbn; [auto|discriminate].
  - intros fuel [o b] buf e s' n _; cbn; unfold gentle, mono_decode; cbn. intros G.
    destruct (is_reached e).
    + destruct G as [G|[G|G]]; try discriminate. subst buf. destruct (f (b ++ [])) as [[i|k] rd]; [|discriminate].
      intros [= <- <-]. cbn. auto.
    + intros [= <- <-]. auto.
  - intros fuel [o b] buf e s' n _ _ R; cbn; unfold mono_decode; cbn. rewrite R.
    destruct (f (b ++ buf)) as [[i|k] rd]; [|discriminate]. intros [= <- <-]. auto.
Qed.
Lemma mono_all_prov : forall I (f : MonoDecode I), (forall w i n, f w = (inl i, n) -> length w <= n) ->
  provident (mono_decoder f) true true true (fun _ => True).
Proof.
  intros I f A.
  assert (G : forall b buf i rd, f (b ++ buf) = (inl i, rd) -> Nat.min (length buf) (rd - length b) = length buf).
  { intros b buf i rd X. apply A in X. rewrite app_length in X. lia. }
  split; cbv beta; auto.
  - intros [[i|] b] s' j _; cbn; [|discriminate]. intros [= <- <-]. auto.
  - intros [[i|] b] _; cbn; [auto|discriminate].
  - intros fuel [o b] buf e s' n _ _; cbn; unfold mono_decode; cbn. destruct (is_reached e).
    + destruct (f (b ++ buf)) as [[i|k] rd] eqn:X; [|discriminate]. intros [= <- <-]. rewrite (G _ _ _ _ X). auto.
    + intros [= <- <-]. auto.
  - intros fuel [o b] buf e s' n _ _ R; cbn; unfold mono_decode; cbn. rewrite R.
    destruct (f (b ++ buf)) as [[i|k] rd]; [|discriminate]. intros [= <- <-]. auto.
  - intros fuel [[o|] b] buf e s' n _ _; cbn; unfold mono_decode; cbn; [discriminate|]. destruct (is_reached e).
    + destruct (f (b ++ buf)) as [[i|k] rd] eqn:X; [|discriminate]. intros _ [= <- <-]. rewrite (G _ _ _ _ X). auto.
    + intros _ [= <- <-]. auto.
  - intros fuel [[o|] b] buf e s' n _ _; cbn; unfold mono_decode; cbn; [|discriminate]. destruct (is_reached e).
    + destruct (f (b ++ buf)) as [[i|k] rd] eqn:X; [|discriminate]. intros _ [= <- <-]. auto.
    + intros _ [= <- <-]. auto.
Qed.
Lemma null_prov : provident null_decoder true true false (fun _ => True).
Proof.
  split; cbv beta; auto; try (intros; discriminate); try (intros; split; [now auto|intros Z; discriminate Z]). intros fuel s buf e s' n _ _. cbn. intros [= <- <-]. split; [lia|]. right. split; [auto|lia].
Qed.
Section POne.
Context {S I : Type} (D : Decoder S I) (m l h : bool) (L : S -> Prop) (H : provident D m l h L).
Lemma omit_prov : provident (omit_decoder D) m l false (fun st => L (om_inner st)).
Proof.
  split; cbv beta; try (intros; discriminate).
  - intros fuel [s [|]] buf e s' n; cbn; intros Ls; [now intros [= <- <-]|].
    destruct (dec_decode D fuel s buf e) as [s1 r] eqn:X. intros [= <- ->]. cbn. eapply pv_decode; eauto.
  - intros [s [|]] s' i; cbn; intros Ls; [intros [= <- <-]; now split|].
    destruct (dec_finish D s) as [s1 [j| | |]] eqn:X; try discriminate. intros [= <- <-]. cbn. split; [|discriminate].
    eapply pv_finish; eauto.
  - intros [s [|]]; cbn; auto. apply (pv_idle H).
  - intros fuel [s [|]] buf e s' n; cbn; intros Ls G.
    + intros [= <- <-]. cbn. split; [lia|]. right. split; [auto|lia].
    + destruct (dec_decode D fuel s buf e) as [s1 r] eqn:X. intros [= <- ->]. cbn. eapply pv_take; eauto.
  - intros fuel [s [|]] buf e s' n; cbn; intros T Ls R.
    + intros [= <- <-]. reflexivity.
    + destruct (dec_decode D fuel s buf e) as [s1 r] eqn:X. intros [= <- ->]. cbn. eapply (pv_loud H); eauto.
      rewrite orb_false_r in T. now rewrite T.
Qed.
Lemma collect_loop_prov : forall k fuel s items off buf e s' n, L s ->
  collect_loop D k fuel s items off buf e = (s', Ok n) ->
  L (cl_inner s') /\ (l || h = true -> is_reached e = true -> cl_eos s' = true) /\
  (cl_eos s' = true -> is_reached e = true) /\
  (off <= length buf -> gentle m e buf -> n = length buf).
Proof.
  induction k as [|k IH]; intros fuel s items off buf e s' n Ls; cbn [collect_loop].
  { destruct (Nat.ltb_spec off (length buf)); [discriminate|]. intros [= <- <-]. cbn. repeat split; auto. lia. }
  destruct (Nat.ltb_spec off (length buf)).
  2: { intros [= <- <-]. cbn. repeat split; auto. lia. }
  pose proof (try_L H fuel s off buf e Ls) as T0. pose proof (try_n H fuel s off buf e Ls ltac:(lia)) as T1.
  destruct (try_decode D fuel s off buf e) as [s1 o|s1 r] eqn:X.
  - destruct (dec_finish D s1) as [s2 [i| | |]] eqn:F; try discriminate. intros Y.
    apply IH in Y; [|exact (proj1 (pv_finish H _ (proj1 T0) F))]. destruct Y as (Y1 & Y2 & Y3 & Y4). repeat split; auto.
    intros _ G. apply Y4; auto. apply T1. now apply gentle_skip.
  - intros [= <- ->]. cbn. destruct T0 as (T2 & T3 & T4 & T5). repeat split; auto.
    + intros B R. rewrite T5 in R; [discriminate|auto].
    + discriminate.
    + intros _ G. apply T1. now apply gentle_skip.
Qed.
Lemma collect_prov : provident (collect_decoder D) m l l (fun st => L (cl_inner st)).
Proof.
  split; cbv beta.
  - intros fuel [s its [|]] buf e s' n; cbn; intros Ls; [now intros [= <- <-]|]. intros X. eapply collect_loop_prov; eauto.
  - intros [s its [|]] s' i; cbn; intros Ls; [intros [= <- <-]; now split|discriminate].
  - intros [s its [|]]; cbn; intros Ls; [auto|discriminate].
  - intros fuel [s its [|]] buf e s' n; cbn; intros Ls G.
    + intros [= <- <-]. cbn. split; [lia|]. right. split; [auto|lia].
    + intros X. apply collect_loop_prov in X; auto. destruct X as (_ & _ & _ & X). rewrite X by (auto; lia). auto.
  - intros fuel [s its [|]] buf e s' n; cbn; intros T Ls R.
    + intros [= <- <-]. reflexivity.
    + intros X. apply collect_loop_prov in X; auto. apply X; auto. destruct l; [auto|discriminate].
  - intros fuel [s its [|]] buf e s' n; cbn; intros T Ls R; [discriminate|].
    intros X. apply collect_loop_prov in X; auto. split; [|apply X]. intros G. apply X; auto. lia.
  - intros fuel [s its [|]] buf e s' n; cbn; intros T Ls R; [now intros [= <- <-]|discriminate].
Qed.
Lemma collectn_loop_prov : forall fuel rem s items off buf e s' n, L s ->
  collectn_loop D fuel rem s items off buf e = (s', Ok n) ->
  L (cn_inner s') /\ (l || h = true -> is_reached e = true -> cn_remaining s' = 0) /\
  (off <= length buf -> gentle m e buf -> off <= n <= length buf /\
     (n = length buf \/ cn_remaining s' = 0 /\ (rem = 0 \/ within (dec_req D s) (n - off)))).
Proof.
  induction rem as [|rem IH]; intros s items off buf e s' n Ls; cbn [collectn_loop].
  { cbn. intros [= <- <-]. cbn. repeat split; auto. }
  destruct (Nat.ltb_spec off (length buf)).
  2: { cbn. destruct (is_reached e) eqn:R; [discriminate|]. intros [= <- <-]. cbn. repeat split; auto; try discriminate; lia. }
  pose proof (try_L H fuel s off buf e Ls) as T0. pose proof (try_n H fuel s off buf e Ls ltac:(lia)) as T1.
  destruct (try_decode D fuel s off buf e) as [s1 o|s1 r] eqn:X.
  - destruct (dec_finish D s1) as [s2 [i| | |]] eqn:F; try discriminate. intros Y.
    apply IH in Y; [|exact (proj1 (pv_finish H _ (proj1 T0) F))]. destruct Y as (Y1 & Y2 & Y3). split; auto. split; auto.
    intros _ G. specialize (T1 (gentle_skip off G)). destruct T1 as (T1 & T2 & _).
    destruct (Y3 (proj2 T1) G) as (Y4 & Y5). split; [lia|].
    destruct T2 as [T2|T2]; [left; lia|]. destruct Y5 as [Y5|[Y5 _]]; [auto|]. right. split; auto. right.
    eapply within_le; eauto. lia.
  - intros [= <- ->]. cbn. destruct T0 as (T2 & T3 & T4 & T5). split; auto. split.
    + intros B R. rewrite T5 in R; [discriminate|auto].
    + intros _ G. specialize (T1 (gentle_skip off G)). cbn in T1. split; [lia|auto].
Qed.
Lemma collectn_prov : provident (collectn_decoder D) m l false (fun st => L (cn_inner st)).
Proof.
  split; cbv beta; try (intros; discriminate).
  - intros fuel [s rm its] buf e s' n; cbn; intros Ls X. eapply collectn_loop_prov; eauto.
  - intros [s rm its] s' i; cbn; intros Ls. destruct (_ =? 0); [|discriminate]. intros [= <- <-]. split; [auto|discriminate].
  - intros [s rm its]; cbn. intros Ls ->. auto.
  - intros fuel [s rm its] buf e s' n; cbn; intros Ls G X. apply collectn_loop_prov in X; auto.
    destruct X as (_ & _ & X). destruct (X (Nat.le_0_l _) G) as (X1 & X2). split; [lia|].
    destruct X2 as [X2|[X2 X3]]; auto. right. rewrite X2. split; auto. destruct rm as [|rm]; cbn; [lia|].
    destruct X3 as [X3|X3]; [discriminate|]. now rewrite Nat.sub_0_r in X3.
  - intros fuel [s rm its] buf e s' n; cbn; intros T Ls R X. apply collectn_loop_prov in X; auto.
    destruct X as (_ & X & _). rewrite X; auto. destruct l; [auto|discriminate].
Qed.
Lemma max_prov : provident (max_decoder D) m l h (fun st => L (mx_inner st)).
Proof.
  assert (G : forall fuel st buf e s' n, dec_decode (max_decoder D) fuel st buf e = (s', Ok n) ->
    dec_decode D fuel (mx_inner st) buf e = (mx_inner s', Ok n)).
  { intros fuel [s c mx] buf e s' n; cbn; unfold max_decode; cbn.
    destruct (max_check _ _ _); try discriminate. destruct (dec_decode D fuel s buf e) as [s1 [k| | |]]; try discriminate.
    destruct (u64_add _ _); [|discriminate]; intros [= <- <-]. reflexivity. }
  split; cbv beta; try (intros; match goal with X : dec_decode _ _ _ _ _ = _ |- _ => apply G in X end; cbn in *).
  - eapply pv_decode; eauto.
  - intros [s c mx] s' i; cbn. destruct (dec_finish D s) as [s1 r] eqn:X. intros Ls [= <- ->]. cbn. eapply pv_finish; eauto.
  - intros [s c mx]; cbn. apply (pv_idle H).
  - eapply pv_take; eauto.
  - eapply (pv_loud H); eauto.
  - eapply (pv_hungry H); eauto.
  - eapply (pv_stay H); eauto.
Qed.
Lemma maybe_prov : provident (maybe_decoder D) m false false (fun st => L (my_inner st)).
Proof.
  assert (G : forall fuel st buf e s' n, dec_decode (maybe_decoder D) fuel st buf e = (s', Ok n) ->
    exists e', (gentle m e buf -> gentle m e' buf) /\ dec_decode D fuel (my_inner st) buf e' = (my_inner s', Ok n)).
  { intros fuel [s b] buf e s' n; cbn; unfold maybe_decode; cbn. intros X.
    exists (if negb b && (length buf =? 0) && is_reached e then eos_new false else e). split.
    - destruct (_ && _); auto. intros _. right; left. reflexivity.
    - destruct (dec_decode D fuel s buf _) as [s1 [k| | |]]; try discriminate. injection X as <- <-. reflexivity. }
  split; cbv beta; try (intros; discriminate).
  - intros fuel st buf e s' n Ls X. apply G in X as (e' & _ & X). eapply pv_decode; eauto.
  - intros [s c] s' i; cbn. destruct (dec_finish D s) as [s1 r] eqn:X. intros Ls [= <- ->]. cbn.
    split; [|discriminate]. eapply pv_finish; eauto.
  - intros [s c]; cbn. apply (pv_idle H).
  - intros fuel st buf e s' n Ls g X. apply G in X as (e' & g' & X). cbn. exact (pv_take H _ _ Ls (g' g) X).
Qed.
Lemma peek_prov : provident (peek_decoder D) m l false (fun st => L (pk_inner st)).
Proof.
  split; cbv beta; try (intros; discriminate).
  - intros fuel [s [i|]] buf e s' n; cbn; unfold peek_decode; cbn; intros Ls; [now intros [= <- <-]|].
    destruct (dec_decode D fuel s buf e) as [s1 [k| | |]] eqn:X; try discriminate.
    pose proof (pv_decode H _ _ _ _ Ls X).
    destruct (dec_idle D s1); [destruct (dec_finish D s1) as [s2 [i| | |]] eqn:F; try discriminate|]; intros [= <- <-]; cbn; auto.
    eapply pv_finish; eauto.
  - intros [s [i|]] s' j; cbn; intros Ls; [|discriminate]. intros [= <- <-]. now split.
  - intros [s [i|]]; cbn; [auto|discriminate].
  - intros fuel [s [i|]] buf e s' n; cbn; unfold peek_decode; cbn; intros Ls G.
    { intros [= <- <-]. cbn. split; [lia|]. right. split; [auto|lia]. }
    destruct (dec_decode D fuel s buf e) as [s1 [k| | |]] eqn:X; try discriminate.
    pose proof (pv_take H _ _ Ls G X) as [T1 T2].
    destruct (dec_idle D s1); [destruct (dec_finish D s1) as [s2 [i| | |]] eqn:F; try discriminate|]; intros [= <- <-]; cbn; auto.
  - intros fuel [s [i|]] buf e s' n; cbn; unfold peek_decode; cbn; intros T Ls R; [now intros [= <- <-]|].
    destruct (dec_decode D fuel s buf e) as [s1 [k| | |]] eqn:X; try discriminate.
    rewrite (pv_loud H _ _ _ _ (l := l)) with (4 := X); auto; [|destruct l; [auto|discriminate]].
    destruct (dec_finish D s1) as [s2 [i| | |]] eqn:F; try discriminate; intros [= <- <-]; cbn; auto.
Qed.
Lemma length_prov : m = true -> h = true ->
  provident (length_decoder D) true false false (fun st => L (ln_inner st) /\ (dec_idle D (ln_inner st) = true -> ln_remaining st = 0%N)).
Proof.
  intros Tm Th.
  assert (G : forall fuel st buf e s' n, dec_decode (length_decoder D) fuel st buf e = (s', Ok n) ->
    L (ln_inner st) -> (dec_idle D (ln_inner st) = true -> ln_remaining st = 0%N) ->
    let limit := N.min (len buf) (ln_remaining st) in
    N.of_nat n = limit /\ L (ln_inner s') /\ (ln_remaining s' = ln_remaining st - limit)%N /\
    (dec_idle D (ln_inner s') = true <-> ln_remaining s' = 0%N)).
  { intros fuel [s ex rm] buf e s' n X Ls Z limit. cbn in *. unfold length_decode in X. cbn [ln_inner ln_expected ln_remaining] in X. cbv zeta in X.
    fold limit in X.
    assert (Y : exists s1, dec_decode D fuel s (firstn (N.to_nat limit) buf) (eos_with_remaining (Finite (rm - limit))) = (s1, Ok n)
       /\ ln_inner s' = s1 /\ ln_remaining s' = (rm - N.of_nat n)%N).
    { destruct (dec_decode D fuel s _ _) as [s1 r]; exists s1.
      destruct (bc_to_u64 _) as [q|]; [destruct (u64_add _ _); [destruct (_ <=? _)%N; [|discriminate]|discriminate]|];
        destruct r; try discriminate; unfold u64_sub in X; (destruct (N.leb_spec (N.of_nat a) rm); [|discriminate]); injection X as <- <-; auto. }
    destruct Y as (s1 & Y & -> & ->). pose proof (pv_decode H _ _ _ _ Ls Y) as Ls1.
    pose proof (pv_take H _ _ Ls (or_introl Tm) Y) as [T1 T2].
    assert (LL : length (firstn (N.to_nat limit) buf) = N.to_nat limit) by (rewrite firstn_length; unfold limit, len in *; lia).
    rewrite LL in *. destruct (dec_idle D s) eqn:id.
    - specialize (Z eq_refl). assert (limit = 0%N) by (unfold limit; lia). repeat split; auto; try lia.
      intros _. exact (pv_stay H _ _ _ _ Th Ls id Y).
    - destruct (pv_hungry H _ _ _ _ Th Ls id Y) as [P1 P2]. specialize (P1 (or_introl Tm)). rewrite LL in P1.
      repeat split; auto; try lia.
      + intros id1. specialize (P2 id1). unfold is_reached, eos_with_remaining in P2.
        destruct (N.eq_dec (rm - limit) 0) as [Q|Q]; [lia|]. destruct (rm - limit)%N; [lia|discriminate].
      + intros Q. apply (pv_loud H) with (4 := Y); auto. { destruct l; auto. }
        replace (rm - limit)%N with 0%N by lia. reflexivity. }
  split; cbv beta; try (intros; discriminate).
  - intros fuel st buf e s' n [Ls Z] X. destruct (G _ _ _ _ _ _ X Ls Z) as (G1 & G2 & G3 & G4). split; auto. apply G4.
  - intros [s ex rm] s' i [Ls Z]. cbn. destruct (N.eqb_spec rm 0); [|discriminate].
    destruct (dec_finish D s) as [s1 r] eqn:F. intros [= <- ->]. cbn. destruct (pv_finish H _ Ls F) as [F1 F2].
    split; [|discriminate]. split; auto. rewrite (F2 Th). discriminate.
  - intros [s ex rm] [Ls Z]. cbn in *. intros id. rewrite Z; auto.
  - intros fuel st buf e s' n [Ls Z] _ X. destruct (G _ _ _ _ _ _ X Ls Z) as (G1 & G2 & G3 & G4). cbv zeta in *.
    cbn [length_decoder dec_idle dec_req within]. unfold len in *. split; [lia|].
    destruct (N.leb_spec (N.of_nat (length buf)) (ln_remaining st)); [left; lia|]. right. split; [|lia]. apply G4. lia.
Qed.
End POne.
Section PTwo.
Context {S0 S1 I0 I1 : Type} (D0 : Decoder S0 I0) (D1 : Decoder S1 I1) (m0 l0 h0 m1 l1 h1 : bool)
  (L0 : S0 -> Prop) (L1 : S1 -> Prop) (H0 : provident D0 m0 l0 h0 L0) (H1 : provident D1 m1 l1 h1 L1).
Lemma gentle_and : forall e buf, gentle (m0 && m1) e buf -> gentle m0 e buf /\ gentle m1 e buf.
Proof. unfold gentle. intros e buf [G|G]; [apply andb_prop in G; tauto|tauto]. Qed.
Lemma loud_and : (l0 && l1) || (l0 && h1) = true -> l0 || h0 = true /\ l1 || h1 = true.
Proof. destruct l0, l1, h1; cbn; auto; discriminate. Qed.
Lemma and_then_prov : forall f, (forall i, L1 (f i) /\ (h1 = true -> dec_idle D1 (f i) = false)) ->
  provident (and_then_decoder D0 D1 f) (m0 && m1) (l0 && l1) (l0 && h1)
    (fun st => L0 (at_inner0 st) /\ match at_inner1 st with Some s1 => L1 s1 | None => True end).
Proof.
  intros f HF.
  assert (BD : forall fuel s0 s1 off buf e s' n, L0 s0 -> L1 s1 ->
    and_then_body D1 fuel s0 s1 off buf e = (s', Ok n) ->
    exists s1', s' = mkAndThen s0 (Some s1') /\ L1 s1' /\ (l1 || h1 = true -> is_reached e = true -> dec_idle D1 s1' = true) /\
     (h1 = true -> dec_idle D1 s1 = false -> dec_idle D1 s1' = true -> is_reached e = true) /\
     (dec_idle D1 s1 = true -> dec_idle D1 s1' = true) /\
     (off <= length buf -> gentle m1 e buf -> off <= n <= length buf /\
       (n = length buf \/ dec_idle D1 s1' = true /\ within (dec_req D1 s1) (n - off)) /\
       (h1 = true -> dec_idle D1 s1 = false -> n = length buf))).
  { intros fuel s0 s1 off buf e s' n A0 A1. unfold and_then_body.
    pose proof (try_L H1 fuel s1 off buf e A1) as T0. pose proof (fun Z => try_n H1 fuel s1 off buf e A1 Z) as T1.
    destruct (try_decode D1 fuel s1 off buf e) as [t o|t r]; intros [= <- E]; exists t; split; auto.
    - subst o. destruct T0 as (T2 & T3 & T4). split; auto. split; auto. split; auto. split; auto.
      intros Z G. specialize (T1 Z (gentle_skip off G)). tauto.
    - subst r. destruct T0 as (T2 & T3 & T4 & T5). split; auto. split; [|split; [|split]].
      + intros B R. rewrite T5 in R; [discriminate|auto].
      + congruence.
      + congruence.
      + intros Z G. specialize (T1 Z (gentle_skip off G)). cbn in T1. subst n. auto. }
  assert (G : forall fuel st buf e s' n, L0 (at_inner0 st) -> match at_inner1 st with Some s1 => L1 s1 | None => True end ->
    dec_decode (and_then_decoder D0 D1 f) fuel st buf e = (s', Ok n) ->
    (L0 (at_inner0 s') /\ match at_inner1 s' with Some s1 => L1 s1 | None => True end) /\
    ((l0 && l1) || (l0 && h1) = true -> is_reached e = true -> dec_idle (and_then_decoder D0 D1 f) s' = true) /\
    (l0 && h1 = true -> dec_idle (and_then_decoder D0 D1 f) st = false -> dec_idle (and_then_decoder D0 D1 f) s' = true -> is_reached e = true) /\
    (dec_idle (and_then_decoder D0 D1 f) st = true -> dec_idle (and_then_decoder D0 D1 f) s' = true) /\
    (gentle (m0 && m1) e buf -> n <= length buf /\
      (n = length buf \/ dec_idle (and_then_decoder D0 D1 f) s' = true /\ within (dec_req (and_then_decoder D0 D1 f) st) n) /\
      (l0 && h1 = true -> dec_idle (and_then_decoder D0 D1 f) st = false -> n = length buf))).
  { intros fuel [s0 [s1|]] buf e s' n A0 A1; cbn in A0, A1; cbn [dec_decode and_then_decoder]; unfold and_then_decode; cbn [at_inner0 at_inner1]; intros X.
    - destruct (BD _ _ _ _ _ _ _ _ A0 A1 X) as (t & -> & B1 & B2 & B3 & B4 & B5). cbn.
      split; [auto|]. split; [intros T; apply B2; now apply loud_and|].
      split; [intros T; apply B3; now apply andb_prop in T|]. split; auto. intros G. apply gentle_and in G as [_ G].
      destruct (B5 (Nat.le_0_l _) G) as (B6 & B7 & B8). rewrite Nat.sub_0_r in B7. split; [lia|]. split; auto.
      intros T. apply B8. now apply andb_prop in T.
    - pose proof (try_L H0 fuel s0 0 buf e A0) as T0. pose proof (try_n H0 fuel s0 0 buf e A0 (Nat.le_0_l _)) as T1.
      destruct (try_decode D0 fuel s0 0 buf e) as [t o|t r].
      + destruct (dec_finish D0 t) as [t' [i| | |]] eqn:F; try discriminate.
        destruct T0 as (T2 & T3 & _). destruct (pv_finish H0 _ T2 F) as [F1 _]. destruct (HF i) as [HF1 HF2].
        destruct (BD _ _ _ _ _ _ _ _ F1 HF1 X) as (u & -> & B1 & B2 & B3 & B4 & B5). cbn.
        split; [auto|]. split; [intros T; apply B2; now apply loud_and|].
        split; [intros T _; apply andb_prop in T as [_ T]; auto|]. split; [discriminate|]. intros G. apply gentle_and in G as [G0 G1].
        specialize (T1 G0). destruct T1 as (T4 & T5 & _). destruct (B5 (proj2 T4) G1) as (B6 & B7 & B8). split; [lia|]. split.
        * destruct B7 as [B7|[B7 _]]; auto. destruct T5 as [T5|T5]; [left; lia|]. right. split; auto. eapply within_le; eauto. lia.
        * intros T _; apply andb_prop in T as [_ T]; auto.
      + injection X as <- ->. destruct T0 as (T2 & T3 & T4 & T5). cbn. split; auto. split; [|split; [discriminate|split; [discriminate|]]].
        * intros T R. rewrite T5 in R; [discriminate|]. now apply loud_and.
        * intros G. apply gentle_and in G as [G0 G1]. specialize (T1 G0). cbn in T1. subst n. auto. }
  split; cbv beta.
  - intros fuel st buf e s' n [A0 A1] X. apply G in X; auto. apply X.
  - intros [s0 [s1|]] s' i [A0 A1]; cbn; [|discriminate]. intros [= <- E]. cbn. auto.
  - intros [s0 [s1|]] [A0 A1]; cbn in *; [|discriminate]. now apply (pv_idle H1).
  - intros fuel st buf e s' n [A0 A1] g X. apply G in X; auto. destruct X as (_ & _ & _ & _ & X). specialize (X g). tauto.
  - intros fuel st buf e s' n T [A0 A1] R X. apply G in X; auto. destruct X as (_ & X & _). auto.
  - intros fuel st buf e s' n T [A0 A1] id X. apply G in X; auto. destruct X as (_ & _ & X & _ & Y). split; auto.
    intros g. now apply Y.
  - intros fuel st buf e s' n T [A0 A1] id X. apply G in X; auto. destruct X as (_ & _ & _ & X & _). auto.
Qed.
Lemma pair_prov : forall D',
  (forall fuel s buf e, dec_decode D' fuel s buf e = dec_decode (tuple2_decoder D0 D1) fuel s buf e) ->
  (forall s, dec_finish D' s = dec_finish (tuple2_decoder D0 D1) s) ->
  (forall s, dec_idle D' s = dec_idle (tuple2_decoder D0 D1) s) ->
  (forall s n0 n1, within (dec_req D0 (fst s)) n0 -> within (dec_req D1 (snd s)) n1 -> within (dec_req D' s) (n0 + n1)) ->
  (forall s, dec_req D0 (fst s) = Ok (Finite 0) -> dec_req D1 (snd s) = Ok (Finite 0) -> dec_req D' s = Ok (Finite 0)) ->
  provident D' (m0 && m1) (l0 && l1) (l0 && h1)
    (fun s => L0 (fst s) /\ L1 (snd s) /\ (l0 && h1 = true -> dec_idle D1 (snd s) = true -> dec_idle D0 (fst s) = true)).
Proof.
  intros D' XD XF XI XQ XZ.
  assert (XI' : forall s, dec_idle D' s = dec_idle D0 (fst s) && dec_idle D1 (snd s)) by (intros s; rewrite XI; reflexivity).
  assert (G : forall fuel s buf e s' n, L0 (fst s) -> L1 (snd s) ->
    (l0 && h1 = true -> dec_idle D1 (snd s) = true -> dec_idle D0 (fst s) = true) ->
    dec_decode D' fuel s buf e = (s', Ok n) ->
    (L0 (fst s') /\ L1 (snd s') /\ (l0 && h1 = true -> dec_idle D1 (snd s') = true -> dec_idle D0 (fst s') = true)) /\
    ((l0 && l1) || (l0 && h1) = true -> is_reached e = true -> dec_idle D' s' = true) /\
    (l0 && h1 = true -> dec_idle D' s = false -> dec_idle D' s' = true -> is_reached e = true) /\
    (dec_idle D' s = true -> dec_idle D' s' = true) /\
    (gentle (m0 && m1) e buf -> n <= length buf /\
      (n = length buf \/ dec_idle D' s' = true /\ within (dec_req D' s) n) /\
      (l0 && h1 = true -> dec_idle D' s = false -> n = length buf))).
  { intros fuel [s0 s1] buf e s' n A0 A1 A2 X. rewrite XD in X. pose proof (XQ (s0, s1)) as Q. rewrite !XI'. cbn [fst snd] in *.
    unfold tuple2_decoder, tuple_of_dec_parts, dec_decode, dec_parts2, dp_snoc, dp_decode, dp_one in X. cbn [fst snd] in X.
    pose proof (try_L H0 fuel s0 0 buf e A0) as T0. pose proof (try_n H0 fuel s0 0 buf e A0 (Nat.le_0_l _)) as T1.
    pose proof (fun id => try_decode_idle D0 fuel s0 0 buf e id) as TI.
    destruct (try_decode D0 fuel s0 0 buf e) as [t o|t r] eqn:X0.
    - pose proof (try_L H1 fuel s1 o buf e A1) as U0. pose proof (fun Z => try_n H1 fuel s1 o buf e A1 Z) as U1.
      pose proof (fun id => try_decode_idle D1 fuel s1 o buf e id) as UI.
      destruct T0 as (T2 & T3 & T4).
      destruct (try_decode D1 fuel s1 o buf e) as [u p|u r1] eqn:X1; injection X as <- E; cbn [fst snd]; rewrite !T3; cbn [andb].
      + subst p. destruct U0 as (U2 & U3 & U4). rewrite U3. split; [auto|]. split; [auto|].
        split; [|split; [auto|]].
        * intros T N _. apply andb_prop in T as [Ta Tb]. apply U4; auto.
          destruct (dec_idle D1 s1) eqn:i1; auto. rewrite A2 in N; auto. now rewrite Ta, Tb.
        * intros G. apply gentle_and in G as [G0 G1]. specialize (T1 G0). destruct T1 as (V1 & V2 & V3).
          specialize (U1 (proj2 V1) (gentle_skip o G1)). destruct U1 as (W1 & W2 & W3). split; [lia|]. split.
          -- destruct V2 as [V2|V2]; [left; lia|]. destruct W2 as [W2|W2]; [auto|]. right. split; auto.
             rewrite Nat.sub_0_r in V2. replace n with (o + (n - o)) by lia. now apply Q.
          -- intros T N. apply andb_prop in T as [Ta Tb]. apply W3; auto.
             destruct (dec_idle D1 s1) eqn:i1; auto. rewrite A2 in N; auto. now rewrite Ta, Tb.
      + subst r1. destruct U0 as (U2 & U3 & U4 & U5). rewrite U4. split; [auto|].
        split; [|split; [discriminate|split]].
        * intros T R. rewrite U5 in R; [discriminate|]. now apply loud_and.
        * intros N. apply andb_prop in N as [_ N]. congruence.
        * intros G. apply gentle_and in G as [G0 G1]. specialize (T1 G0). destruct T1 as (V1 & _).
          specialize (U1 (proj2 V1) (gentle_skip o G1)). cbn in U1. subst n. auto.
    - injection X as <- ->. destruct T0 as (T2 & T3 & T4 & T5). cbn [fst snd]. rewrite T4, T3. cbn [andb].
      split; [|split; [|split; [discriminate|split; [discriminate|]]]].
      + split; auto. split; auto. intros T i1. rewrite (A2 T i1) in T3. discriminate.
      + intros T R. rewrite T5 in R; [discriminate|]. now apply loud_and.
      + intros G. apply gentle_and in G as [G0 _]. specialize (T1 G0). cbn in T1. subst n. auto. }
  split; cbv beta.
  - intros fuel st buf e s' n (A0 & A1 & A2) X. apply G in X; auto. apply X.
  - intros [s0 s1] s' i (A0 & A1 & A2). rewrite XF, XI'. cbn in *.
    destruct (dec_finish D0 s0) as [t0 [i0| | |]] eqn:F0; try discriminate.
    destruct (dec_finish D1 s1) as [t1 [i1| | |]] eqn:F1; try discriminate. intros [= <- <-]. cbn.
    destruct (pv_finish H0 _ A0 F0) as [F2 _], (pv_finish H1 _ A1 F1) as [F3 F4]. 
    assert (F5 : l0 && h1 = true -> dec_idle D1 t1 = false) by (intros T; apply andb_prop in T as [_ T]; auto).
    split; [split; [auto|split; [auto|]]|].
    + intros T. rewrite F5 by auto. discriminate.
    + intros T. rewrite F5 by auto. apply andb_false_r.
  - intros s (A0 & A1 & A2). rewrite XI'. intros N. apply andb_prop in N as [N0 N1]. apply XZ; [now apply (pv_idle H0)|now apply (pv_idle H1)].
  - intros fuel st buf e s' n (A0 & A1 & A2) g X. apply G in X; auto. destruct X as (_ & _ & _ & _ & X). specialize (X g). tauto.
  - intros fuel st buf e s' n T (A0 & A1 & A2) R X. apply G in X; auto. destruct X as (_ & X & _). auto.
  - intros fuel st buf e s' n T (A0 & A1 & A2) id X. apply G in X; auto. destruct X as (_ & _ & X & _ & Y). split; auto.
    intros g. now apply Y.
  - intros fuel st buf e s' n T (A0 & A1 & A2) id X. apply G in X; auto. destruct X as (_ & _ & _ & X & _). auto.
Qed.
End PTwo.
Lemma within_add : forall q0 q1 n0 n1, within q0 n0 -> within q1 n1 ->
  within (rbind q0 (fun q => rbind q1 (add_for_decoding q))) (n0 + n1).
Proof.
  intros [[k0| |]| | |] [[k1| |]| | |] n0 n1; cbn; auto; try tauto; try lia.
  - intros A B. unfold u64_add. destruct (_ <=? _)%N; cbn; auto. lia.
  - intros A B. destruct (N.eqb_spec k0 0); cbn; lia.
  - intros A B. destruct (N.eqb_spec k1 0); cbn; lia.
Qed.
Lemma within_zero : forall q n, within q n -> within (rbind q (add_for_decoding (Finite 0))) n.
Proof.
  intros [[k| |]| | |] n; cbn; auto. intros A. unfold u64_add. destruct (_ <=? _)%N; cbn; auto.
Qed.
Lemma frugal_provides : forall S I (D : Decoder S I) m l h Init, frugal D m l h Init -> frugal_ok D m l h Init.
Proof.
  induction 1.
  - destruct IHfrugal as (L & P & Q). exists L. auto.
  - eexists. split; [apply copy_prov; auto|]. split; [auto|discriminate].
  - eexists. split; [apply bytes_prov; auto|]. intros s [b ->]. cbn. split; [lia|discriminate].
  - eexists. split; [apply rem_prov|]. intros s ->. auto.
  - eexists. split; [apply null_prov|]. split; [auto|discriminate].
  - eexists. split; [apply pad_prov|]. intros s [b ->]. auto.
  - eexists. split; [apply mono_prov|]. split; [auto|discriminate].
  - eexists. split; [apply mono_all_prov; auto|]. intros s ->. auto.
  - eapply frugal_sub with (D := copy_decoder vec_box); cbn; auto.
    + intros s s' j. destruct (copy_finish vec_box s) as [t [i| | |]]; try discriminate. intros [= <- <-]. eauto.
    + eexists. split; [apply copy_prov, vec_box_ok|]. split; [auto|discriminate].
  - eapply frugal_sub; [| | | |eassumption]; cbn; auto.
    intros s s' j. destruct (dec_finish D s) as [t [i| | |]]; cbn; try discriminate. destruct (str_from_utf8 i); try discriminate.
    intros [= <- <-]. eauto.
  - eapply frugal_sub; [| | | |eassumption]; cbn; auto.
    intros s s' j. destruct (dec_finish D s) as [t [i| | |]]; try discriminate. intros [= <- <-]. eauto.
  - eapply frugal_sub; [| | | |eassumption]; cbn; auto.
    intros s s' j. destruct (dec_finish D s) as [t [i| | |]]; cbn; try discriminate. destruct (f i); try discriminate. intros [= <- <-]. eauto.
  - eapply frugal_sub; [| | | |eassumption]; cbn; auto.
    + intros fuel s buf e s' n. destruct (dec_decode D fuel s buf e) as [s1 [k| | |]]; cbn; try discriminate. auto.
    + intros s s' j. destruct (dec_finish D s) as [t [i| | |]]; cbn; try discriminate. intros [= <- <-]. eauto.
  - destruct IHfrugal1 as (L0 & P0 & Q0), IHfrugal2 as (L1 & P1 & Q1).
    eexists. split; [eapply and_then_prov; eauto|]. intros st (s & Z & ->). cbn. split; auto. split; [apply Q0|]; auto.
  - destruct IHfrugal as (L & P & Q). eexists. split; [eapply omit_prov; eauto|]. intros st Z. split; [now apply Q|discriminate].
  - destruct IHfrugal as (L & P & Q). eexists. split; [eapply collect_prov; eauto|]. intros st (s & Z & ->). split; [now apply Q|auto].
  - destruct IHfrugal as (L & P & Q). eexists. split; [eapply collectn_prov; eauto|]. intros st (s & n & Z & ->). split; [now apply Q|discriminate].
  - destruct IHfrugal as (L & P & Q). eexists. split; [eapply length_prov; eauto|]. intros st (s & n & Z & ->).
    destruct (Q _ Z) as [Q1 Q2]. cbn. split; [split; auto|discriminate]. rewrite Q2; [discriminate|auto].
  - destruct IHfrugal as (L & P & Q). eexists. split; [eapply max_prov; eauto|]. intros st Z. now apply Q.
  - destruct IHfrugal as (L & P & Q). eexists. split; [eapply peek_prov; eauto|]. intros st (s & Z & ->). split; [now apply Q|discriminate].
  - destruct IHfrugal as (L & P & Q). eexists. split; [eapply maybe_prov; eauto|]. intros st Z. split; [now apply Q|discriminate].
  - destruct IHfrugal1 as (L0 & P0 & Q0), IHfrugal2 as (L1 & P1 & Q1).
    eexists. split; [eapply (pair_prov P0 P1); auto|].
    + intros [s0 s1] n0 n1 A B. cbn -[add_for_decoding] in *. apply within_zero in A.
      pose proof (within_add _ _ _ _ A B) as C. destruct (dec_req D0 s0); auto.
    + intros [s0 s1] A B. cbn -[add_for_decoding] in *. now rewrite A, B.
    + intros [s0 s1] [Z0 Z1]. cbn in *. destruct (Q1 _ Z1) as [Q2 Q3], (Q0 _ Z0) as [Q4 _].
      assert (N : l0 && h1 = true -> dec_idle D1 s1 = false) by (intros T; apply andb_prop in T as [_ T]; auto).
      repeat split; auto.
      * intros T. rewrite N; [discriminate|auto].
      * intros T. rewrite N; [apply andb_false_r|auto].
  - destruct IHfrugal1 as (L0 & P0 & Q0), IHfrugal2 as (L1 & P1 & Q1).
    destruct (tuple_snoc_eq D1 H) as (A & B & _ & C).
    eexists. split; [eapply (pair_prov P0 P1); auto|].
    + intros [s0 s1] n0 n1 X Y. cbn -[add_for_decoding] in *. now apply within_add.
    + intros [s0 s1] X Y. cbn -[add_for_decoding] in *. now rewrite X, Y.
    + intros [s0 s1] [Z0 Z1]. cbn in *. destruct (Q1 _ Z1) as [Q2 Q3], (Q0 _ Z0) as [Q4 _].
      assert (N : l0 && h1 = true -> dec_idle D1 s1 = false) by (intros T; apply andb_prop in T as [_ T]; auto).
      repeat split; auto.
      * intros T. rewrite N; [discriminate|auto].
      * intros T. rewrite N; [apply andb_false_r|auto].
Qed.
Lemma served_trans : forall S I (D : Decoder S I) a b c, served D a b -> served D b c -> served D a c.
Proof. intros S I D a b c A. induction 1; auto; [eapply sv_decode|eapply sv_finish]; eauto. Qed.
Lemma served_L : forall S I (D : Decoder S I) m l h L s s', provident D m l h L -> L s -> served D s s' -> L s'.
Proof. intros S I D m l h L s s' P Ls. induction 1; auto; [eapply pv_decode; eauto|exact (proj1 (pv_finish P _ IHserved H0))]. Qed.
Lemma rd_read_len : forall r k r' b, rd_read r k = (r', inl b) -> length b <= k.
Proof.
  intros [d p] k r' b. unfold rd_read. cbn. destruct p as [|[n| |x] p]; intros [= <- <-]; rewrite ?firstn_length; cbn; lia.
Qed.
Lemma exact_blame : forall S I (D : Decoder S I) m l h L ifuel, provident D m l h L ->
  forall fuel s r s' r', L s -> decode_exact D fuel ifuel s r = (s', r', Err InconsistentState) ->
  exists s1, served D s s1 /\
    (dec_req D s1 = Err InconsistentState \/
     (exists buf e s2, dec_decode D ifuel s1 buf e = (s2, Err InconsistentState)) \/
     (exists s2, dec_finish D s1 = (s2, Err InconsistentState))).
Proof.
  intros S I D m l h L ifuel P. induction fuel as [|fuel IH]; intros s r s' r' Ls; [discriminate|]. cbn [decode_exact].
  destruct (dec_req D s) as [q|k| |] eqn:Q; try discriminate.
  2: { cbn. intros [= <- <- ->]. exists s. split; [constructor|auto]. }
  cbv zeta. set (ask := exact_ask q).
  destruct (if ask =? 0 then (r, inl []) else rd_read r ask) as [r1 [b|x]] eqn:R; [|destruct x; discriminate].
  assert (LB : length b <= ask).
  { destruct (ask =? 0); [injection R as <- <-; cbn; lia|eapply rd_read_len; eauto]. }
  set (e := if ask =? 0 then eos_new false else eos_new (length b =? 0)).
  assert (G : gentle m e b).
  { unfold gentle, e. destruct (ask =? 0); [auto|]. destruct b; auto. }
  destruct (dec_decode D ifuel s b e) as [s2 [n|k| |]] eqn:X; try discriminate.
  2: { cbn. intros [= <- <- ->]. exists s. split; [constructor|]. right; left. eauto. }
  assert (SV : served D s s2) by (eapply sv_decode; [constructor|eauto]).
  pose proof (pv_take P _ _ Ls G X) as [T1 T2].
  assert (n = length b) as ->.
  { destruct T2 as [T2|[_ T2]]; auto. rewrite Q in T2. unfold ask, exact_ask in LB. destruct q as [k| |]; cbn -[io_buf_size] in *.
    - destruct (N.ltb_spec k (N.of_nat io_buf_size)); lia.
    - tauto.
    - lia. }
  rewrite Nat.eqb_refl. destruct (dec_idle D s2).
  - destruct (dec_finish D s2) as [s3 it] eqn:F. intros [= <- <- ->]. exists s2. split; auto. right; right. eauto.
  - intros Y. apply IH in Y; [|eapply pv_decode; eauto]. destruct Y as (s3 & Y1 & Y2). exists s3. split; auto.
    eapply served_trans; eauto.
Qed.
