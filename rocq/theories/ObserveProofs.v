(** * From the contracts of [Spec] to what a user observes. *)
From Coq Require Import Lia ZifyBool ZifyNat ZifyN.
From Verif Require Export Observe DecComb2 EncComb2 Drive.
From Verif Require Import CodecProofs.
Set Implicit Arguments.

Lemma skipn_min : forall {A} n (w : list A), skipn (min (length w) n) w = skipn n w.
Proof.
  intros A n w. destruct (le_lt_dec (length w) n).
  - rewrite Nat.min_l, !skipn_all2 by lia. auto.
  - now rewrite Nat.min_r by lia.
Qed.

Lemma parses_delivers : forall S I (D : Decoder S I) m (P : S -> Prop) s w i,
  parses D m P s w i -> delivers D m s w i P.
Proof.
  intros S I D m P s w i H fuel sched extra MX L F.
  assert (FIN : forall s' w', parses D m P s' w' i -> dec_idle D s' = true ->
            exists s'', dec_finish D s' = (s'', Ok i) /\ P s'').
  { intros s' w' H' id. destruct (parses_idle H' id) as (_ & _ & s'' & X & Y). eauto. }
  destruct m.
  - destruct (feed_sd (fuel := fuel) sched extra H L F) as (s' & X1 & X2 & X3).
    exists s'. split; auto. split; [|eauto]. intros id. rewrite X3, id. cbn [completes].
    intuition congruence.
  - destruct MX as (-> & EN); [discriminate|]. rewrite app_nil_r in *. rewrite skipn_min.
    destruct (feed_exact (fuel := fuel) H EN F) as (s' & X1 & X2 & X3 & X4 & _).
    exists s'. split; auto. split; [|eauto]. intros id. cbn [completes]. split.
    + intros id'. destruct (X3 id') as (Y1 & [Y2|Y2]); [auto|congruence].
    + intros (Y1 & Y2 & _). apply X4; auto. discriminate.
  - destruct MX as (-> & EN); [discriminate|]. rewrite app_nil_r in *. rewrite skipn_min.
    destruct (dec_idle D s) eqn:id.
    + destruct (feed_exact (fuel := fuel) H EN F) as (s' & X1 & X2 & X3 & X4 & _).
      exists s'. split; auto. split; [congruence|eauto].
    + destruct (feed_eos (fuel := fuel) H id EN F) as (s' & X1 & X2 & X3).
      exists s'. split; auto. split; [|eauto]. intros _. cbn [completes]. rewrite X3. tauto.
Qed.

Lemma emits_outputs : forall S I (E : Encoder S I) f0 (P : S -> Prop) s w,
  emits E f0 P s w -> outputs E s w P.
Proof.
  intros S I E f0 P s w H. exists f0. intros fuel bufs out F.
  destruct (drain_ok (fuel := fuel) bufs out H F) as (s' & X1 & X2 & X3).
  exists s'. split; auto. split.
  - intros id. rewrite X3, id. intuition congruence.
  - intros id. destruct (emits_idle X2 id) as (_ & X). auto.
Qed.

Lemma accepts_sends : forall S I (E : Encoder S I) f0 (P : S -> Prop) s i w,
  accepts E f0 P s i w -> sends E s i w P.
Proof.
  intros S I E f0 P s i w H. exists f0. intros fuel bufs F.
  destruct (H fuel ltac:(lia)) as (s1 & X0 & EM).
  destruct (drain_ok (fuel := fuel) bufs [] EM F) as (s' & X1 & X2 & X3).
  exists s1, s'. split; auto. split; auto. split.
  - intros id. rewrite X3, id. intuition congruence.
  - intros id. destruct (emits_idle X2 id) as (Y & X). split; auto.
    apply (f_equal (@length byte)) in Y. rewrite skipn_length in Y. cbn in Y. lia.
Qed.
Lemma encodes_sends : forall S I (E : Encoder S I) (fmt : format I) (P Q : S -> Prop) s i w,
  encodes E fmt P Q -> P s -> fmt w i -> sends E s i w Q.
Proof.
  intros S I E fmt P Q s i w H HP F. destruct (H _ _ F) as (f0 & A). eapply accepts_sends; eauto.
Qed.

(** The size arithmetic of a history. *)
Lemma decode_calls_inv : forall S I (D : Decoder S I) (J : nat -> S -> Prop) s,
  J 0 s ->
  (forall t s1 fuel buf e s2 r, J t s1 -> dec_decode D fuel s1 buf e = (s2, r) ->
     J (t + size_of r) s2) ->
  forall t s', decode_calls D s t s' -> J t s'.
Proof. intros S I D J s J0 JS t s' H. induction H; eauto. Qed.
Lemma encode_calls_inv : forall S I (E : Encoder S I) (J : nat -> S -> Prop) s,
  J 0 s ->
  (forall t s1 fuel buf e s2 buf' r, J t s1 -> enc_encode E fuel s1 buf e = (s2, buf', r) ->
     J (t + size_of r) s2) ->
  forall t s', encode_calls E s t s' -> J t s'.
Proof. intros S I E J s J0 JS t s' H. induction H; eauto. Qed.
