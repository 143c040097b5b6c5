(** * Termination of decoders in every state: proofs. *)
From Coq Require Import Lia ZifyBool ZifyNat ZifyN.
From Verif Require Export Steady LiveProofs.
From Verif Require Import Props_Collect.
Set Implicit Arguments.

(** As [takes_a_byte], also for calls on an idle decoder. *)
Definition hungry {S I} (D : Decoder S I) (s : S) : Prop :=
  (dec_idle D s = true -> forall s' i, dec_finish D s <> (s', Ok i)) /\
  (forall fuel buf e s1 s2 i, buf <> [] ->
     dec_decode D fuel s buf e = (s1, Ok 0) -> dec_idle D s1 = true -> dec_finish D s1 <> (s2, Ok i)).

Record prod {S I} (D : Decoder S I) (b : bool) (R Fresh : S -> Prop) : Prop := {
  pr_decode : forall s fuel buf e s' r, R s -> dec_decode D fuel s buf e = (s', r) -> R s';
  pr_finish : forall s s' r, R s -> dec_finish D s = (s', r) -> R s';
  pr_returns : forall s, R s -> returns D s;
  pr_end : forall s, R s -> snd (dec_finish D s) <> OutOfFuel;
  pr_fresh : forall s, Fresh s -> R s;
  pr_again : forall s s' i, R s -> dec_finish D s = (s', Ok i) -> Fresh s';
  pr_byte : b = true -> forall s, Fresh s -> hungry D s
}.
Arguments pr_decode {S I D b R Fresh} _ {s fuel buf e s' r} _ _.
Arguments pr_finish {S I D b R Fresh} _ {s s' r} _ _.
Arguments pr_returns {S I D b R Fresh} _ {s} _ fuel buf e _.
Arguments pr_end {S I D b R Fresh} _ {s} _.
Arguments pr_fresh {S I D b R Fresh} _ {s} _.
Arguments pr_again {S I D b R Fresh} _ {s s' i} _ _.
Arguments pr_byte {S I D b R Fresh} _ _ {s} _.

Definition settled {S I} (D : Decoder S I) (b : bool) (Init : S -> Prop) : Prop :=
  exists R Fresh, prod D b R Fresh /\ forall s, Init s -> Fresh s.

Lemma prod_productive : forall S I (D : Decoder S I) R Fresh, prod D true R Fresh -> productive D R.
Proof.
  intros S I D R Fresh P. constructor.
  - intros. exact (pr_decode P H H0).
  - intros. exact (pr_finish P H H0).
  - intros s H fuel buf e. exact (pr_returns P H fuel buf e).
  - intros s H. exact (pr_end P H).
  - intros s s' i H E. destruct (pr_byte P eq_refl (pr_again P H E)) as [A B]. split; auto.
    intros. eapply B; eauto.
Qed.

(** ** Primitives *)
Ltac noloop := let h := fresh in intros h; revert h; branches; discriminate.
Lemma prod_flat : forall S I (D : Decoder S I) b (Fresh R : S -> Prop),
  (forall fuel s buf e, snd (dec_decode D fuel s buf e) <> OutOfFuel) -> (forall s, snd (dec_finish D s) <> OutOfFuel) ->
  (forall s fuel buf e s' r, R s -> dec_decode D fuel s buf e = (s', r) -> R s') ->
  (forall s s' r, R s -> dec_finish D s = (s', r) -> R s') ->
  (forall s, Fresh s -> R s) -> (forall s s' i, R s -> dec_finish D s = (s', Ok i) -> Fresh s') ->
  (b = true -> forall s, Fresh s -> hungry D s) -> prod D b R Fresh.
Proof. intros. constructor; auto. intros s _ fuel buf e _. auto. Qed.

Lemma copy_settled : forall B (BX : ByteBox B) b0, box_ok BX ->
  settled (copy_decoder BX) (0 <? length (bx_ref BX b0)) (fun s => s = copy_dec_new b0).
Proof.
  intros B BX b0 [GP _ _].
  exists (fun s => length (bx_ref BX (cd_bytes s)) = length (bx_ref BX b0)),
    (fun s => length (bx_ref BX (cd_bytes s)) = length (bx_ref BX b0) /\ cd_off s = 0).
  split; [|intros s ->; auto]. apply prod_flat; cbn -[Nat.ltb].
  - intros fuel s buf e. unfold copy_decode. branches; discriminate.
  - intros s. unfold copy_finish. branches; discriminate.
  - intros [b off] fuel buf e s' r L. cbn in L. unfold copy_decode; cbn -[overwrite].
    unfold usize_sub. destruct (Nat.leb_spec off (length (bx_ref BX b))); [|now intros [= <- <-]].
    destruct (_ && _); intros [= <- <-]; cbn -[overwrite];
      rewrite GP; rewrite overwrite_length; auto; rewrite firstn_length; lia.
  - intros [b off] s' r L. unfold copy_finish; cbn. destruct (_ =? _); intros [= <- <-]; auto.
  - intros s [L _]; auto.
  - intros [b off] s' i L. unfold copy_finish; cbn. destruct (_ =? _); intros [= <- <-]; auto.
  - intros P [b off] [L O]. apply Nat.ltb_lt in P. cbn in L, O. subst off. split; cbn -[overwrite Nat.eqb].
    + intros X. apply Nat.eqb_eq in X. lia.
    + intros fuel buf e s1 s2 i NE. unfold copy_decode; cbn -[overwrite Nat.min Nat.sub].
      destruct (_ && _); [discriminate|]. intros [= <- E]. destruct buf; [congruence|]. cbn [length] in E. lia.
Qed.
Lemma bytes_settled : forall B (BX : ByteBox B), box_ok BX ->
  settled (bytes_decoder BX) true (fun s => exists b, 0 < length (bx_ref BX b) /\ s = bytes_dec_new b).
Proof.
  intros B BX [GP _ _].
  exists (fun _ => True), (fun s => match bd_bytes s with None => True | Some b => 0 < length (bx_ref BX b) /\ bd_off s = 0 end).
  split; [|intros s (b & L & ->); cbn; auto]. apply prod_flat; auto; cbn.
  - intros fuel s buf e. unfold bytes_decode. branches; discriminate.
  - intros s. unfold bytes_finish. branches; discriminate.
  - intros [b off] s' i _. unfold bytes_finish, bytes_dec_exact; cbn. destruct (_ =? _); [|discriminate].
    destruct b; [intros [= <- <-]; cbn; auto|discriminate].
  - intros _ [[b|] off] F; cbn in F.
    + destruct F as [F ->]. split; cbn -[overwrite Nat.sub Nat.eqb].
      * unfold bytes_finish, bytes_dec_exact; cbn -[Nat.eqb Nat.sub]. intros X. apply Nat.eqb_eq in X. lia.
      * intros fuel buf e s1 s2 i NE. unfold bytes_decode; cbn -[overwrite Nat.min Nat.sub].
        destruct (_ && _); [discriminate|]. intros [= <- E]. destruct buf; [congruence|]. cbn [length] in E. lia.
    + split; cbn; unfold bytes_finish, bytes_decode; cbn; discriminate.
Qed.
Lemma rest_settled : settled rem_decoder true (fun s => s = rem_dec_new).
Proof.
  exists (fun _ => True), (fun s => rm_eos s = false). split; [|intros s ->; auto]. apply prod_flat; auto; cbn.
  - intros fuel s buf e. unfold rem_decode. branches; discriminate.
  - intros s. unfold rem_finish. branches; discriminate.
  - intros [b e] s' i _. unfold rem_finish; cbn. destruct e; [intros [= <- <-]|]; auto; discriminate.
  - intros _ [b e0]; cbn; intros ->. split; cbn; [discriminate|].
    intros fuel buf e s1 s2 i NE. unfold rem_decode; cbn.
    assert (L : length buf <> 0) by (destruct buf; [congruence|discriminate]).
    destruct (bc_to_u64 _); [destruct (_ <=? _)%N; [|discriminate]|]; intros [= <- E]; congruence.
Qed.
Lemma pad_settled : settled pad_decoder true (fun s => exists b, s = pad_dec_new b).
Proof.
  exists (fun _ => True), (fun s => pd_eos s = false). split; [|intros s (b & ->); auto]. apply prod_flat; auto; cbn.
  - intros fuel s buf e. unfold pad_decode. branches; discriminate.
  - intros s. branches; discriminate.
  - intros [b e] s' i _. cbn. destruct e; [intros [= <- <-]|]; auto; discriminate.
  - intros _ [b e0]; cbn; intros ->. split; cbn; [discriminate|].
    intros fuel buf e s1 s2 i NE. unfold pad_decode; cbn.
    assert (L : length buf <> 0) by (destruct buf; [congruence|discriminate]).
    destruct b; [destruct (forallb _ _); [|discriminate]|]; intros [= <- E]; congruence.
Qed.
Lemma flat_settled : forall S I (D : Decoder S I),
  (forall fuel s buf e, snd (dec_decode D fuel s buf e) <> OutOfFuel) -> (forall s, snd (dec_finish D s) <> OutOfFuel) ->
  settled D false (fun _ => True).
Proof.
  intros S I D A B. exists (fun _ => True), (fun _ => True). split; auto. apply prod_flat; auto. discriminate.
Qed.

(** ** Combinators on the item *)
Lemma item_settled : forall S I T (D : Decoder S I) (D' : Decoder S T) b Init,
  (forall fuel s buf e, fst (dec_decode D' fuel s buf e) = fst (dec_decode D fuel s buf e)) ->
  (forall fuel s buf e n, snd (dec_decode D' fuel s buf e) = Ok n -> snd (dec_decode D fuel s buf e) = Ok n) ->
  (forall fuel s buf e, snd (dec_decode D' fuel s buf e) = OutOfFuel -> snd (dec_decode D fuel s buf e) = OutOfFuel) ->
  (forall s, fst (dec_finish D' s) = fst (dec_finish D s)) ->
  (forall s i, snd (dec_finish D' s) = Ok i -> exists j, snd (dec_finish D s) = Ok j) ->
  (forall s, snd (dec_finish D' s) = OutOfFuel -> snd (dec_finish D s) = OutOfFuel) ->
  (forall s, dec_idle D' s = dec_idle D s) ->
  settled D b Init -> settled D' b Init.
Proof.
  intros S I T D D' b Init A1 A2 A3 B1 B2 B3 ID (R & F & P & J). exists R, F. split; auto.
  assert (FI : forall s s' i, dec_finish D' s = (s', Ok i) -> exists j, dec_finish D s = (s', Ok j)).
  { intros s s' i E. specialize (B1 s). specialize (B2 s i). rewrite E in *. cbn in *.
    destruct (B2 eq_refl) as (j & X). exists j. rewrite B1. rewrite <- X. apply surjective_pairing. }
  constructor.
  - intros s fuel buf e s' r H E. specialize (A1 fuel s buf e). rewrite E in A1. cbn in A1.
    destruct (dec_decode D fuel s buf e) as [t x] eqn:E1. cbn in A1. subst t. exact (pr_decode P H E1).
  - intros s s' r H E. specialize (B1 s). rewrite E in B1. cbn in B1.
    destruct (dec_finish D s) as [t x] eqn:E1. cbn in B1. subst t. exact (pr_finish P H E1).
  - intros s H fuel buf e N X. exact (pr_returns P H fuel buf e N (A3 _ _ _ _ X)).
  - intros s H X. exact (pr_end P H (B3 _ X)).
  - intros s. apply (pr_fresh P).
  - intros s s' i H E. destruct (FI _ _ _ E) as (j & E'). exact (pr_again P H E').
  - intros bt s f. destruct (pr_byte P bt f) as [U V]. split.
    + rewrite ID. intros i s' x E. destruct (FI _ _ _ E) as (j & E'). exact (U i _ _ E').
    + intros fuel buf e s1 s2 i NE E. rewrite ID. intros X Y. destruct (FI _ _ _ Y) as (j & E').
      refine (V fuel buf e s1 s2 j NE _ X E').
      specialize (A1 fuel s buf e). specialize (A2 fuel s buf e 0). rewrite E in *. cbn in *.
      rewrite A1, <- (A2 eq_refl). apply surjective_pairing.
Qed.
Lemma settled_sim : forall S I (D D' : Decoder S I) b Init, dec_sim D D' -> settled D b Init -> settled D' b Init.
Proof.
  intros S I D D' b Init (E1 & E2 & _ & E4). apply item_settled; intros; rewrite <- ?E1, <- ?E2, <- ?E4 in *; eauto.
Qed.
Lemma weaken_settled : forall S I (D : Decoder S I) b b' Init (Init' : S -> Prop),
  settled D b Init -> (b' = true -> b = true) -> (forall s, Init' s -> Init s) -> settled D b' Init'.
Proof.
  intros S I D b b' Init Init' (R & F & P & J) H1 H2. exists R, F. split; auto. destruct P. constructor; auto.
Qed.

(** ** [bytecodec_try_decode!] *)
Section Try.
Context {S I : Type} (D : Decoder S I) (b : bool) (R F : S -> Prop) (P : prod D b R F).
Lemma try_R : forall s fuel off buf e, R s ->
  match try_decode D fuel s off buf e with TGo s' _ => R s' | TRet s' _ => R s' end.
Proof.
  intros s fuel off buf e H. unfold try_decode. destruct (dec_idle D s); auto.
  destruct (slice_from off buf); auto. destruct (dec_decode D fuel s l e) as [s1 r] eqn:E.
  pose proof (pr_decode P H E). destruct r; auto. destruct (dec_idle D s1); auto.
Qed.
Lemma try_returns : forall s fuel off buf e, R s -> enough fuel buf ->
  match try_decode D fuel s off buf e with TGo _ _ => True | TRet _ r => r <> OutOfFuel end.
Proof.
  intros s fuel off buf e H N. unfold try_decode. destruct (dec_idle D s); auto.
  unfold slice_from. destruct (off <=? length buf); [|discriminate].
  pose proof (pr_returns P H fuel (skipn off buf) e) as X.
  assert (N' : enough fuel (skipn off buf)) by (eapply enough_sub; eauto; rewrite skipn_length; lia).
  specialize (X N'). destruct (dec_decode D fuel s (skipn off buf) e) as [s1 [n| | |]]; cbn in X; try congruence.
  destruct (dec_idle D s1); auto; discriminate.
Qed.
(** Nothing taken, and done: then there is no item. *)
Lemma try_hungry : forall s fuel off buf e s', b = true -> F s -> off < length buf ->
  try_decode D fuel s off buf e = TGo s' off -> forall s2 i, dec_finish D s' <> (s2, Ok i).
Proof.
  intros s fuel off buf e s' bt f L. destruct (pr_byte P bt f) as [U V]. unfold try_decode.
  destruct (dec_idle D s) eqn:id; [intros [= <-]; auto|].
  unfold slice_from. destruct (Nat.leb_spec off (length buf)); [|discriminate].
  destruct (dec_decode D fuel s (skipn off buf) e) as [s1 [n| | |]] eqn:E; try discriminate.
  destruct (dec_idle D s1) eqn:id1; [|discriminate]. intros [= <- X] s2 i.
  assert (n = 0) as -> by lia.
  apply (V fuel (skipn off buf) e s1); auto.
  intros Y. apply (f_equal (@length byte)) in Y. rewrite skipn_length in Y. cbn in Y. lia.
Qed.
Lemma try_off : forall s fuel off buf e s' off', try_decode D fuel s off buf e = TGo s' off' -> off <= off'.
Proof.
  intros s fuel off buf e s' off'. unfold try_decode. destruct (dec_idle D s); [intros [= <- <-]; auto|].
  unfold slice_from. destruct (off <=? length buf); [|discriminate].
  destruct (dec_decode D fuel s (skipn off buf) e) as [s1 [n| | |]]; try discriminate.
  destruct (dec_idle D s1); [|discriminate]. intros [= <- <-]. lia.
Qed.
Lemma try_ret_off : forall s fuel off buf e s' n, try_decode D fuel s off buf e = TRet s' (Ok n) ->
  off <= n /\ dec_idle D s' = false.
Proof.
  intros s fuel off buf e s' k. unfold try_decode. destruct (dec_idle D s); [discriminate|].
  unfold slice_from. destruct (off <=? length buf); [|discriminate].
  destruct (dec_decode D fuel s (skipn off buf) e) as [s1 [n| | |]]; try discriminate.
  destruct (dec_idle D s1) eqn:X; [discriminate|]. intros [= <- <-]. split; auto. lia.
Qed.
End Try.
Arguments try_R {S I D b R F} P s fuel off buf e _.
Arguments try_returns {S I D b R F} P s fuel off buf e _ _.
Arguments try_hungry {S I D b R F} P {s fuel off buf e s'} _ _ _ _ s2 i _.
Arguments try_off {S I D s fuel off buf e s' off'} _.
Arguments try_ret_off {S I D s fuel off buf e s' n} _.

(** ** Pairs *)
Lemma pair_settled : forall S0 S1 I0 I1 (D0 : Decoder S0 I0) (D1 : Decoder S1 I1) b0 b1 Init0 Init1,
  settled D0 b0 Init0 -> settled D1 b1 Init1 ->
  settled (tuple2_decoder D0 D1) (b0 || b1) (fun s => Init0 (fst s) /\ Init1 (snd s)).
Proof.
  intros S0 S1 I0 I1 D0 D1 b0 b1 Init0 Init1 (R0 & F0 & P0 & J0) (R1 & F1 & P1 & J1).
  exists (fun s => R0 (fst s) /\ R1 (snd s)), (fun s => F0 (fst s) /\ F1 (snd s)).
  split; [|intros s [A B]; auto]. constructor.
  - intros [s0 s1] fuel buf e s' r [H0 H1]. cbn in H0, H1 |- *.
    pose proof (try_R P0 _ fuel 0 buf e H0) as T0. destruct (try_decode D0 fuel s0 0 buf e) as [t0 o|t0 x].
    + pose proof (try_R P1 _ fuel o buf e H1) as T1.
      destruct (try_decode D1 fuel s1 o buf e) as [t1 o'|t1 x]; intros [= <- <-]; auto.
    + intros [= <- <-]; auto.
  - intros [s0 s1] s' r [H0 H1]. cbn in H0, H1 |- *. destruct (dec_finish D0 s0) as [t0 x] eqn:E0.
    pose proof (pr_finish P0 H0 E0). destruct x; try (intros [= <- <-]; auto; fail).
    destruct (dec_finish D1 s1) as [t1 y] eqn:E1. pose proof (pr_finish P1 H1 E1). intros [= <- <-]; auto.
  - intros [s0 s1] [H0 H1] fuel buf e N. cbn in H0, H1 |- *.
    pose proof (try_returns P0 _ fuel 0 buf e H0 N) as T0. destruct (try_decode D0 fuel s0 0 buf e) as [t0 o|t0 x]; auto.
    pose proof (try_returns P1 _ fuel o buf e H1 N) as T1.
    destruct (try_decode D1 fuel s1 o buf e) as [t1 o'|t1 x]; cbn; auto. discriminate.
  - intros [s0 s1] [H0 H1]. cbn in H0, H1 |- *. pose proof (pr_end P0 H0) as X. pose proof (pr_end P1 H1) as Y.
    destruct (dec_finish D0 s0) as [t0 [x| | |]]; cbn in X |- *; try congruence.
    destruct (dec_finish D1 s1) as [t1 [y| | |]]; cbn in Y |- *; congruence.
  - intros s [A B]. split; [exact (pr_fresh P0 A)|exact (pr_fresh P1 B)].
  - intros [s0 s1] s' i [H0 H1]. cbn in H0, H1 |- *.
    destruct (dec_finish D0 s0) as [t0 [x| | |]] eqn:E0; try discriminate.
    destruct (dec_finish D1 s1) as [t1 [y| | |]] eqn:E1; try discriminate. intros [= <- <-].
    split; [exact (pr_again P0 H0 E0)|exact (pr_again P1 H1 E1)].
  - intros bt [s0 s1] [H0 H1]. cbn in H0, H1.
    assert (NO : forall t0 t1 (s' : S0 * S1) (i : I0 * I1),
       (forall u i, dec_finish D0 t0 <> (u, Ok i)) \/ (forall u i, dec_finish D1 t1 <> (u, Ok i)) ->
       dec_finish (tuple2_decoder D0 D1) (t0, t1) <> (s', Ok i)).
    { intros t0 t1 s' i OR. cbn. destruct (dec_finish D0 t0) as [u0 [x| | |]]; try discriminate.
      destruct (dec_finish D1 t1) as [u1 [y| | |]]; try discriminate.
      destruct OR as [OR|OR]; [destruct (OR u0 x)|destruct (OR u1 y)]; auto. }
    split.
    + intros id s' i. apply andb_prop in id. destruct id as [id0 id1]. cbn in id0, id1. apply NO.
      apply orb_prop in bt. destruct bt as [bt|bt]; [left|right]; intros u x.
      * apply (proj1 (pr_byte P0 bt H0) id0).
      * apply (proj1 (pr_byte P1 bt H1) id1).
    + intros fuel buf e s1' s2 i NE E id. assert (L : 0 < length buf) by (destruct buf; cbn; [congruence|lia]).
      revert E. cbn. destruct (try_decode D0 fuel s0 0 buf e) as [t0 o|t0 x] eqn:E0.
      * pose proof (try_off E0).
        destruct (try_decode D1 fuel s1 o buf e) as [t1 o'|t1 x] eqn:E1.
        -- pose proof (try_off E1). intros [= <- ->]. assert (o = 0) as -> by lia.
           apply NO. apply orb_prop in bt. destruct bt as [bt|bt]; [left|right].
           ++ exact (try_hungry P0 bt H0 L E0).
           ++ exact (try_hungry P1 bt H1 L E1).
        -- intros [= <- ->]. cbn in id. apply andb_prop in id.
           pose proof (try_ret_off E1). destruct id, H2. congruence.
      * intros [= <- ->]. cbn in id. apply andb_prop in id.
        pose proof (try_ret_off E0). destruct id, H. congruence.
Qed.

(** ** [and_then] *)
Lemma and_then_settled : forall S0 S1 I0 I1 (D0 : Decoder S0 I0) (D1 : Decoder S1 I1) (f : I0 -> S1) b0 b1 Init0 (Init1 : S1 -> Prop),
  settled D0 b0 Init0 -> settled D1 b1 Init1 -> (forall i, Init1 (f i)) ->
  settled (and_then_decoder D0 D1 f) (b0 || b1) (fun st => Init0 (at_inner0 st) /\ at_inner1 st = None).
Proof.
  intros S0 S1 I0 I1 D0 D1 f b0 b1 Init0 Init1 (R0 & F0 & P0 & J0) (R1 & F1 & P1 & J1) HF.
  exists (fun st => R0 (at_inner0 st) /\ match at_inner1 st with None => True | Some s1 => F0 (at_inner0 st) /\ R1 s1 end),
    (fun st => F0 (at_inner0 st) /\ at_inner1 st = None).
  split; [|intros s [A B]; auto].
  assert (BODY : forall fuel s0 s1 off buf e st' r, R0 s0 -> F0 s0 -> R1 s1 ->
    and_then_body D1 fuel s0 s1 off buf e = (st', r) ->
    at_inner0 st' = s0 /\ exists s1', at_inner1 st' = Some s1' /\ R1 s1').
  { intros fuel s0 s1 off buf e st' r H0 G0 H1. unfold and_then_body.
    pose proof (try_R P1 s1 fuel off buf e H1) as T.
    destruct (try_decode D1 fuel s1 off buf e) as [t o|t x]; intros [= <- <-]; cbn; eauto. }
  assert (BRET : forall fuel s0 s1 off buf e, R1 s1 -> enough fuel buf ->
    snd (and_then_body D1 fuel s0 s1 off buf e : AndThen S0 S1 * res nat) <> OutOfFuel).
  { intros fuel s0 s1 off buf e H1 N. unfold and_then_body. pose proof (try_returns P1 s1 fuel off buf e H1 N) as T.
    destruct (try_decode D1 fuel s1 off buf e) as [t o|t x]; cbn; auto. discriminate. }
  constructor.
  - intros [s0 o1] fuel buf e st' r [H0 H1]. cbn in H0, H1 |- *. unfold and_then_decode; cbn.
    destruct o1 as [s1|].
    + destruct H1 as [G0 H1]. intros E. destruct (BODY _ _ _ _ _ _ _ _ H0 G0 H1 E) as (-> & s1' & -> & K). auto.
    + pose proof (try_R P0 s0 fuel 0 buf e H0) as T. destruct (try_decode D0 fuel s0 0 buf e) as [t o|t x].
      * destruct (dec_finish D0 t) as [u x] eqn:E0. pose proof (pr_finish P0 T E0) as U.
        destruct x as [i| | |]; try (intros [= <- <-]; auto; fail).
        pose proof (pr_again P0 T E0) as G. intros E.
        destruct (BODY _ _ _ _ _ _ _ _ U G (pr_fresh P1 (J1 _ (HF i))) E) as (-> & s1' & -> & K). auto.
      * intros [= <- <-]; auto.
  - intros [s0 o1] s' r [H0 H1]. cbn in H0, H1 |- *. destruct o1 as [s1|]; intros [= <- <-]; cbn; auto.
  - intros [s0 o1] [H0 H1] fuel buf e N. cbn in H0, H1 |- *. unfold and_then_decode; cbn. destruct o1 as [s1|].
    + apply BRET; tauto.
    + pose proof (try_R P0 s0 fuel 0 buf e H0) as T. pose proof (try_returns P0 s0 fuel 0 buf e H0 N) as X.
      destruct (try_decode D0 fuel s0 0 buf e) as [t o|t x]; auto.
      pose proof (pr_end P0 T) as Y. destruct (dec_finish D0 t) as [u [i| | |]] eqn:E0; cbn in Y |- *; try congruence.
      apply BRET; auto. exact (pr_fresh P1 (J1 _ (HF i))).
  - intros [s0 o1] [H0 H1]. cbn in H0, H1 |- *. destruct o1 as [s1|]; cbn; [|discriminate]. apply (pr_end P1); tauto.
  - intros [s0 o1] [A B]. cbn in A, B |- *. subst. split; auto. exact (pr_fresh P0 A).
  - intros [s0 o1] s' i [H0 H1]. cbn in H0, H1 |- *. destruct o1 as [s1|]; [|discriminate].
    intros [= <- X]. cbn. tauto.
  - intros bt [s0 o1] [A B]. cbn in A, B. subst o1. split; [discriminate|].
    intros fuel buf e st1 st2 i NE E id. assert (L : 0 < length buf) by (destruct buf; cbn; [congruence|lia]).
    revert E. cbn. unfold and_then_decode; cbn.
    destruct (try_decode D0 fuel s0 0 buf e) as [t o|t x] eqn:E0.
    2:{ intros [= <- ->]. discriminate id. }
    pose proof (try_off E0) as O0. destruct (dec_finish D0 t) as [u [j| | |]] eqn:F; try discriminate.
    unfold and_then_body. destruct (try_decode D1 fuel (f j) o buf e) as [t1 o1|t1 x] eqn:E1.
    + intros [= <- ->]. pose proof (try_off E1). assert (o = 0) as -> by lia. cbn.
      apply orb_prop in bt. destruct bt as [bt|bt].
      * destruct (try_hungry P0 bt A L E0 _ _ F).
      * pose proof (try_hungry P1 bt (J1 _ (HF j)) L E1) as K.
        destruct (dec_finish D1 t1) as [u1 x1] eqn:F1'. cbn. intros [= _ ->]. destruct (K _ _ eq_refl).
    + intros [= <- ->]. cbn in id. destruct (try_ret_off E1). congruence.
Qed.

(** ** [omit] *)
Lemma omit_settled : forall S I (D : Decoder S I) b Init present, settled D b Init ->
  settled (omit_decoder D) (b && present) (fun st => Init (om_inner st) /\ (present = true -> om_omit st = false)).
Proof.
  intros S I D b Init present (R & F & P & J).
  exists (fun st => R (om_inner st) /\ (present = true -> om_omit st = false) /\ (om_omit st = true \/ True)),
    (fun st => R (om_inner st) /\ (present = true -> om_omit st = false) /\ (om_omit st = false -> F (om_inner st))).
  split; [|intros s [A B]; split; [exact (pr_fresh P (J _ A))|auto]]. constructor.
  - intros [s o] fuel buf e st' r (H & G & _). cbn in H, G |- *. destruct o; [intros [= <- <-]; auto|].
    destruct (dec_decode D fuel s buf e) as [t x] eqn:E. intros [= <- <-]. cbn. split; auto. exact (pr_decode P H E).
  - intros [s o] st' r (H & G & _). cbn in H, G |- *. destruct o; [intros [= <- <-]; auto|].
    destruct (dec_finish D s) as [t x] eqn:E. intros [= <- <-]. cbn. split; auto. exact (pr_finish P H E).
  - intros [s o] (H & G & _) fuel buf e N. cbn in H, G |- *. destruct o; [discriminate|].
    pose proof (pr_returns P H fuel buf e N). destruct (dec_decode D fuel s buf e) as [t x]; auto.
  - intros [s o] (H & G & _). cbn in H, G |- *. destruct o; [discriminate|].
    pose proof (pr_end P H). destruct (dec_finish D s) as [t [x| | |]]; cbn in *; congruence.
  - intros s (A & B & C). auto.
  - intros [s o] st' i (H & G & _). cbn in H, G |- *. destruct o; [intros [= <- <-]; cbn; auto|].
    + repeat split; auto. discriminate.
    + destruct (dec_finish D s) as [t [x| | |]] eqn:E; try discriminate. intros [= <- <-]. cbn.
      split; [exact (pr_finish P H E)|]. split; auto. intros _. exact (pr_again P H E).
  - intros bt [s o] (H & G & K). cbn in H, G, K. apply andb_prop in bt. destruct bt as [bt pt].
    rewrite (G pt) in *. specialize (K eq_refl). destruct (pr_byte P bt K) as [U V]. split; cbn.
    + intros id s' i. destruct (dec_finish D s) as [t [x| | |]] eqn:E; try discriminate. destruct (U id _ _ eq_refl).
    + intros fuel buf e s1 s2 i NE. destruct (dec_decode D fuel s buf e) as [t x] eqn:E. intros [= <- ->]. cbn.
      intros id. destruct (dec_finish D t) as [u [x| | |]] eqn:E2; try discriminate. destruct (V _ _ _ _ _ _ NE E id E2).
Qed.

(** ** [collect], [collectn] *)
Lemma collect_settled : forall S I (D : Decoder S I) Init, settled D true Init ->
  settled (collect_decoder D) false (fun st => exists s, Init s /\ st = collect_new s).
Proof.
  intros S I D Init (R & F & P & J). exists (fun st => R (cl_inner st)), (fun st => R (cl_inner st)).
  split; [|intros st (s & A & ->); exact (pr_fresh P (J _ A))]. constructor; auto.
  - intros st fuel buf e st' r H E. eapply collect_keeps; [| |exact H|exact E].
    + exact (@pr_decode _ _ _ _ _ _ P).
    + exact (@pr_finish _ _ _ _ _ _ P).
  - intros [s it eos] st' r H. cbn in *. destruct eos; intros [= <- <-]; auto.
  - intros st H. exact (collect_returns _ (prod_productive P) H).
  - intros [s it eos] H. cbn. destruct eos; discriminate.
  - intros [s it eos] st' i H. cbn in *. destruct eos; intros [= <- <-]; auto.
  - discriminate.
Qed.
Lemma collectn_settled : forall S I (D : Decoder S I) b Init, settled D b Init ->
  settled (collectn_decoder D) false (fun st => exists s n, Init s /\ st = collectn_new s n).
Proof.
  intros S I D b Init (R & F & P & J). exists (fun st => R (cn_inner st)), (fun st => R (cn_inner st)).
  split; [|intros st (s & n & A & ->); exact (pr_fresh P (J _ A))].
  assert (LOOP : forall fuel n s it off buf e, R s ->
    R (cn_inner (fst (collectn_loop D fuel n s it off buf e))) /\
    (enough fuel buf -> snd (collectn_loop D fuel n s it off buf e) <> OutOfFuel)).
  { intros fuel. induction n; intros s it off buf e H; cbn [collectn_loop].
    - cbn. split; auto. discriminate.
    - destruct (off <? length buf); [|cbn; split; auto; destruct (is_reached e); discriminate].
      pose proof (try_R P s fuel off buf e H) as T. pose proof (try_returns P s fuel off buf e H) as X.
      destruct (try_decode D fuel s off buf e) as [t o|t x]; cbn; auto.
      pose proof (pr_end P T) as Y. destruct (dec_finish D t) as [u x] eqn:E. pose proof (pr_finish P T E).
      destruct x; cbn in Y |- *; auto; split; auto; try discriminate; congruence. }
  constructor; auto.
  - intros [s n it] fuel buf e st' r H E. cbn in H, E. destruct (LOOP fuel n s it 0 buf e H) as [A _]. rewrite E in A. auto.
  - intros [s n it] st' r H. cbn in *. destruct (n =? 0); intros [= <- <-]; auto.
  - intros [s n it] H fuel buf e N. cbn in *. apply LOOP; auto.
  - intros [s n it] H. cbn. destruct (n =? 0); discriminate.
  - intros [s n it] st' i H. cbn in *. destruct (n =? 0); intros [= <- <-]; auto.
  - discriminate.
Qed.

(** ** [length], [max_bytes], [slice] *)
Lemma length_settled : forall S I (D : Decoder S I) b Init positive, settled D b Init ->
  settled (length_decoder D) positive
    (fun st => exists s n, Init s /\ st = length_new s n /\ (positive = true -> 0 < n)%N).
Proof.
  intros S I D b Init positive (R & F & P & J).
  exists (fun st => R (ln_inner st) /\ (positive = true -> 0 < ln_expected st)%N),
    (fun st => R (ln_inner st) /\ (positive = true -> 0 < ln_expected st)%N /\ ln_remaining st = ln_expected st).
  split; [|intros st (s & n & A & -> & B); cbn; split; [exact (pr_fresh P (J _ A))|auto]].
  assert (DEC : forall fuel st buf e, R (ln_inner st) ->
    R (ln_inner (fst (length_decode D fuel st buf e))) /\
    ln_expected (fst (length_decode D fuel st buf e)) = ln_expected st /\
    (enough fuel buf -> snd (length_decode D fuel st buf e) <> OutOfFuel) /\
    (snd (length_decode D fuel st buf e) = Ok 0 -> ln_remaining (fst (length_decode D fuel st buf e)) = ln_remaining st)).
  { intros fuel [s ex rm] buf e H. unfold length_decode. cbn [ln_inner ln_expected ln_remaining] in *.
    set (lim := N.min (len buf) rm).
    set (go := let '(s', r) := dec_decode D fuel s (firstn (N.to_nat lim) buf) _ in _).
    assert (GO : R (ln_inner (fst go)) /\ ln_expected (fst go) = ex /\ (enough fuel buf -> snd go <> OutOfFuel) /\
                 (snd go = Ok 0 -> ln_remaining (fst go) = rm)).
    { unfold go. destruct (dec_decode D fuel s _ _) as [t r] eqn:E. pose proof (pr_decode P H E) as K.
      match type of E with dec_decode D fuel s ?b ?x = _ => pose proof (pr_returns P H fuel b x) as X end.
      assert (N : enough fuel buf -> enough fuel (firstn (N.to_nat lim) buf)).
      { intros N. eapply enough_sub; eauto. rewrite firstn_length. lia. }
      rewrite E in X. cbn in X.
      destruct r as [k| | |]; cbn; try (split; [exact K|]; split; auto; split; auto; discriminate).
      unfold u64_sub. destruct (N.leb_spec (N.of_nat k) rm); cbn; (split; [exact K|]; split; auto; split; [discriminate|]);
        [intros [= ->]; lia|discriminate]. }
    destruct (bc_to_u64 _); [|exact GO]. destruct (u64_add _ _); [|cbn; repeat split; auto; discriminate].
    destruct (_ <=? _)%N; [exact GO|cbn; repeat split; auto; discriminate]. }
  constructor.
  - intros st fuel buf e st' r [H G] E. cbn in E. destruct (DEC fuel st buf e H) as (A & B & _). rewrite E in A, B. cbn in A, B.
    split; auto. now rewrite B.
  - intros [s ex rm] st' r [H G]. cbn in H, G |- *. destruct (rm =? 0)%N; [|intros [= <- <-]; auto].
    destruct (dec_finish D s) as [t x] eqn:E. intros [= <- <-]. cbn. split; auto. exact (pr_finish P H E).
  - intros st [H G] fuel buf e N. apply (DEC fuel st buf e H); auto.
  - intros [s ex rm] [H G]. cbn in H |- *. destruct (rm =? 0)%N; [|discriminate].
    pose proof (pr_end P H). destruct (dec_finish D s); auto.
  - intros st (A & B & _). auto.
  - intros [s ex rm] st' i [H G]. cbn in H, G |- *. destruct (rm =? 0)%N; [|discriminate].
    destruct (dec_finish D s) as [t x] eqn:E. intros [= <- ->]. cbn. repeat split; auto. exact (pr_finish P H E).
  - intros pt [s ex rm] (H & G & K). cbn in H, G, K. subst rm. specialize (G pt). split.
    + intros _ s' i. cbn. destruct (N.eqb_spec ex 0); [lia|discriminate].
    + intros fuel buf e s1 s2 i NE E _. cbn in E. destruct (DEC fuel (mkLength s ex ex) buf e H) as (_ & _ & _ & X).
      rewrite E in X. cbn in X. specialize (X eq_refl). cbn. rewrite X. destruct (N.eqb_spec ex 0); [lia|discriminate].
Qed.
Lemma max_settled : forall S I (D : Decoder S I) b Init, settled D b Init ->
  settled (max_decoder D) b (fun st => Init (mx_inner st)).
Proof.
  intros S I D b Init (R & F & P & J). exists (fun st => R (mx_inner st)), (fun st => F (mx_inner st)).
  split; auto.
  assert (CHK : forall T (st : MaxBytes T) buf e, max_check st buf e <> OutOfFuel).
  { intros T st buf e. unfold max_check. branches; discriminate. }
  constructor.
  - intros [s c m] fuel buf e st' r H. cbn in H |- *. unfold max_decode; cbn.
    destruct (max_check _ buf e); try (intros [= <- <-]; auto; fail).
    destruct (dec_decode D fuel s buf e) as [t x] eqn:E. pose proof (pr_decode P H E).
    destruct x; try (intros [= <- <-]; auto; fail). destruct (u64_add _ _); intros [= <- <-]; auto.
  - intros [s c m] st' r H. cbn in H |- *. destruct (dec_finish D s) as [t x] eqn:E. intros [= <- <-]. exact (pr_finish P H E).
  - intros [s c m] H fuel buf e N. cbn in H |- *. unfold max_decode; cbn.
    pose proof (CHK _ (mkMax s c m) buf e). destruct (max_check _ buf e); cbn; try congruence.
    pose proof (pr_returns P H fuel buf e N). destruct (dec_decode D fuel s buf e) as [t [x| | |]]; cbn in *; try congruence.
    destruct (u64_add _ _); discriminate.
  - intros [s c m] H. cbn in H |- *. pose proof (pr_end P H). destruct (dec_finish D s); auto.
  - intros st A. exact (pr_fresh P A).
  - intros [s c m] st' i H. cbn in H |- *. destruct (dec_finish D s) as [t x] eqn:E. intros [= <- ->]. exact (pr_again P H E).
  - intros bt [s c m] A. cbn in A. destruct (pr_byte P bt A) as [U V]. split; cbn.
    + intros id s' i. destruct (dec_finish D s) as [t x] eqn:E. intros [= _ ->]. exact (U id _ _ eq_refl).
    + intros fuel buf e s1 s2 i NE. unfold max_decode; cbn. destruct (max_check _ buf e); try discriminate.
      destruct (dec_decode D fuel s buf e) as [t [x| | |]] eqn:E; try discriminate.
      destruct (u64_add _ _); try discriminate. intros [= <- ->]. cbn. intros id.
      destruct (dec_finish D t) as [u y] eqn:E2. intros [= _ ->]. exact (V _ _ _ _ _ _ NE E id E2).
Qed.
Lemma slice_settled : forall S I (D : Decoder S I) b Init, settled D b Init ->
  settled (slice_decoder D) false (fun st => Init (sl_inner st)).
Proof.
  intros S I D b Init (R & F & P & J). exists (fun st => R (sl_inner st)), (fun st => R (sl_inner st)).
  split; [|intros st A; exact (pr_fresh P (J _ A))]. constructor; auto.
  - intros [s c] fuel buf e st' r H. cbn in H |- *. unfold slice_decode; cbn [sl_inner sl_consumable].
    destruct (eos_back _ _); [|intros [= <- <-]; auto].
    destruct (dec_decode D fuel s _ _) as [t x] eqn:E. pose proof (pr_decode P H E).
    destruct x; try (intros [= <- <-]; auto; fail). destruct (u64_sub _ _); intros [= <- <-]; auto.
  - intros [s c] st' r H. cbn in H |- *. destruct (dec_finish D s) as [t x] eqn:E. intros [= <- <-]. exact (pr_finish P H E).
  - intros [s c] H fuel buf e N. cbn in H |- *. unfold slice_decode; cbn [sl_inner sl_consumable].
    destruct (eos_back _ _) as [e'|]; [|discriminate]. set (lim := N.min (len buf) c).
    assert (N' : enough fuel (firstn (N.to_nat lim) buf)).
    { eapply enough_sub; eauto. rewrite firstn_length. lia. }
    pose proof (pr_returns P H fuel _ e' N'). destruct (dec_decode D fuel s _ e') as [t [x| | |]]; cbn in *; try congruence.
    destruct (u64_sub _ _); discriminate.
  - intros [s c] H. cbn in H |- *. pose proof (pr_end P H). destruct (dec_finish D s); auto.
  - intros [s c] st' i H. cbn in H |- *. destruct (dec_finish D s) as [t x] eqn:E. intros [= <- ->]. exact (pr_finish P H E).
  - discriminate.
Qed.

(** ** [peekable], [maybe_eos] *)
Lemma peek_settled : forall S I (D : Decoder S I) b Init, settled D b Init ->
  settled (peek_decoder D) b (fun st => exists s, Init s /\ st = peek_new s).
Proof.
  intros S I D b Init (R & F & P & J).
  exists (fun st => R (pk_inner st) /\ match pk_item st with None => True | Some _ => F (pk_inner st) end),
    (fun st => F (pk_inner st) /\ pk_item st = None).
  split; [|intros st (s & A & ->); cbn; auto]. constructor.
  - intros [s o] fuel buf e st' r [H G]. cbn in H, G |- *. unfold peek_decode; cbn. destruct o; [intros [= <- <-]; auto|].
    destruct (dec_decode D fuel s buf e) as [t x] eqn:E. pose proof (pr_decode P H E) as K.
    destruct x; try (intros [= <- <-]; auto; fail). destruct (dec_idle D t); [|intros [= <- <-]; auto].
    destruct (dec_finish D t) as [u y] eqn:E2. pose proof (pr_finish P K E2).
    destruct y; intros [= <- <-]; cbn; auto. split; auto. exact (pr_again P K E2).
  - intros [s o] st' r [H G]. cbn in H, G |- *. destruct o; intros [= <- <-]; cbn; auto.
  - intros [s o] [H G] fuel buf e N. cbn in H, G |- *. unfold peek_decode; cbn. destruct o; [discriminate|].
    pose proof (pr_returns P H fuel buf e N) as X. destruct (dec_decode D fuel s buf e) as [t x] eqn:E.
    pose proof (pr_decode P H E) as K. destruct x; cbn in *; try congruence.
    destruct (dec_idle D t); [|discriminate]. pose proof (pr_end P K).
    destruct (dec_finish D t) as [u [y| | |]]; cbn in *; congruence.
  - intros [s o] [H G]. cbn. destruct o; discriminate.
  - intros [s o] [A B]. cbn in A, B |- *. subst o. split; auto. exact (pr_fresh P A).
  - intros [s o] st' i [H G]. cbn in H, G |- *. destruct o; [|discriminate]. intros [= <- <-]. auto.
  - intros bt [s o] [A B]. cbn in A, B. subst o. destruct (pr_byte P bt A) as [U V]. split; [discriminate|].
    intros fuel buf e s1 s2 i NE. cbn. unfold peek_decode; cbn.
    destruct (dec_decode D fuel s buf e) as [t [x| | |]] eqn:E; try discriminate.
    destruct (dec_idle D t) eqn:id.
    + destruct (dec_finish D t) as [u [y| | |]] eqn:E2; try discriminate. intros [= <- ->].
      destruct (V _ _ _ _ _ _ NE E id E2).
    + intros [= <- ->]. discriminate.
Qed.
Lemma maybe_settled : forall S I (D : Decoder S I) b Init, settled D b Init ->
  settled (maybe_decoder D) b (fun st => Init (my_inner st)).
Proof.
  intros S I D b Init (R & F & P & J). exists (fun st => R (my_inner st)), (fun st => F (my_inner st)).
  split; auto. constructor.
  - intros [s c] fuel buf e st' r H. cbn in H |- *. unfold maybe_decode; cbn [my_inner my_started].
    destruct (dec_decode D fuel s buf _) as [t x] eqn:E. pose proof (pr_decode P H E).
    destruct x; intros [= <- <-]; auto.
  - intros [s c] st' r H. cbn in H |- *. destruct (dec_finish D s) as [t x] eqn:E. intros [= <- <-]. exact (pr_finish P H E).
  - intros [s c] H fuel buf e N. cbn in H |- *. unfold maybe_decode; cbn [my_inner my_started].
    match goal with |- context [dec_decode D fuel s buf ?x] => pose proof (pr_returns P H fuel buf x N) as X;
      destruct (dec_decode D fuel s buf x) as [t [y| | |]] end; cbn in *; congruence.
  - intros [s c] H. cbn in H |- *. pose proof (pr_end P H). destruct (dec_finish D s); auto.
  - intros st A. exact (pr_fresh P A).
  - intros [s c] st' i H. cbn in H |- *. destruct (dec_finish D s) as [t x] eqn:E. intros [= <- ->]. exact (pr_again P H E).
  - intros bt [s c] A. cbn in A. destruct (pr_byte P bt A) as [U V]. split; cbn.
    + intros id s' i. destruct (dec_finish D s) as [t x] eqn:E. intros [= _ ->]. exact (U id _ _ eq_refl).
    + intros fuel buf e s1 s2 i NE. unfold maybe_decode; cbn [my_inner my_started].
      destruct (dec_decode D fuel s buf _) as [t [x| | |]] eqn:E; try discriminate.
      intros [= <- ->]. cbn. intros id.
      destruct (dec_finish D t) as [u y] eqn:E2. intros [= _ ->]. exact (V _ _ _ _ _ _ NE E id E2).
Qed.

(** ** All compositions *)
Theorem steady_settled : forall S I (D : Decoder S I) b Init, steady D b Init -> settled D b Init.
Proof.
  intros S I D b Init H. induction H.
  - eapply weaken_settled; eauto.
  - now apply copy_settled.
  - now apply bytes_settled.
  - apply flat_settled; cbn; intros.
    + unfold bytes_decode. branches; discriminate.
    + unfold bytes_finish. branches; discriminate.
  - apply rest_settled.
  - apply flat_settled; cbn; discriminate.
  - apply pad_settled.
  - apply flat_settled; cbn; intros; [unfold mono_decode|]; branches; discriminate.
  - eapply item_settled with (D := copy_decoder vec_box); cbn -[copy_decode copy_finish]; auto.
    + intros s. destruct (copy_finish vec_box s); auto.
    + intros s i. destruct (copy_finish vec_box s) as [t [x| | |]]; cbn; eauto; discriminate.
    + intros s. destruct (copy_finish vec_box s) as [t [x| | |]]; cbn; eauto; discriminate.
    + pose proof (copy_settled (repeat x00 width) vec_box_ok) as X. cbn -[Nat.ltb repeat] in X. rewrite repeat_length in X. exact X.
  - eapply item_settled; [..|exact IHsteady]; cbn; auto.
    + intros s. destruct (dec_finish D s); auto.
    + intros s i. destruct (dec_finish D s) as [t [x| | |]]; cbn; eauto; discriminate.
    + intros s. destruct (dec_finish D s) as [t [x| | |]]; cbn; eauto; [destruct (str_from_utf8 x)|..]; discriminate.
  - eapply item_settled; [..|exact IHsteady]; cbn; auto.
    + intros s. destruct (dec_finish D s); auto.
    + intros s i. destruct (dec_finish D s) as [t [x| | |]]; cbn; eauto; discriminate.
    + intros s. destruct (dec_finish D s) as [t [x| | |]]; cbn; eauto; discriminate.
  - eapply item_settled; [..|exact IHsteady]; cbn; auto.
    + intros s. destruct (dec_finish D s); auto.
    + intros s i. destruct (dec_finish D s) as [t [x| | |]]; cbn; eauto; discriminate.
    + intros s. destruct (dec_finish D s) as [t [x| | |]]; cbn; eauto; [destruct (f x)|..]; discriminate.
  - eapply item_settled; [..|exact IHsteady]; cbn; auto.
    + intros fuel s buf e. destruct (dec_decode D fuel s buf e); auto.
    + intros fuel s buf e n. destruct (dec_decode D fuel s buf e) as [t [x| | |]]; cbn; auto; discriminate.
    + intros fuel s buf e. destruct (dec_decode D fuel s buf e) as [t [x| | |]]; cbn; auto; discriminate.
    + intros s. destruct (dec_finish D s); auto.
    + intros s i. destruct (dec_finish D s) as [t [x| | |]]; cbn; eauto; discriminate.
    + intros s. destruct (dec_finish D s) as [t [x| | |]]; cbn; eauto; discriminate.
  - eapply and_then_settled; eauto.
  - now apply omit_settled.
  - now apply collect_settled.
  - eapply collectn_settled; eauto.
  - eapply length_settled; eauto.
  - now apply max_settled.
  - eapply slice_settled; eauto.
  - now apply peek_settled.
  - now apply maybe_settled.
  - now apply pair_settled.
  - eapply settled_sim; [apply tuple_snoc_eq; auto|]. now apply pair_settled.
Qed.
