(** * Compositions with components of the user keep the contract: proofs for C77. *)
From Coq Require Import Lia ZifyBool ZifyNat ZifyN.
From Verif Require Export Custom ObserveProofs UniverseProofs.
Set Implicit Arguments.

Lemma speaks_decodes : forall S I (D : Decoder S I) m fmt Pre Post,
  speaks D m fmt Pre Post -> decodes D m fmt Pre Post.
Proof.
  induction 1.
  - assumption.
  - eapply decodes_sub; eauto.
  - intros s w i p f. apply parses_sd_exact. auto.
  - intros s w t p (i & X & <-). apply map_parses. auto.
  - intros s w t p (i & X & Y). eapply try_map_parses; eauto.
  - intros s w t p (i & X & Y). eapply utf8_parses; eauto. now apply from_utf8_complete.
  - intros s w i p X. eapply map_err_parses; eauto.
  - intros [s b] w o [E p] (i & -> & X). cbn in E, p. subst b. apply omit_false_parses. auto.
  - intros [s b] w o E [-> ->]. cbn in E. subst b.
    eapply parses_post; [|apply omit_true_parses]. intros ? ->. reflexivity.
  - intros st w i (s & p & ->) [X <-]. eapply parses_post; [|eapply length_parses; eauto].
    intros [s' x r] (A & B & C). cbn in *. subst. exists s'. auto.
  - intros st w i (s & p & ->) [X L]. eapply parses_post; [|eapply max_parses; eauto].
    intros [s' x r] (A & B & C). cbn in *. subst. exists s'. auto.
  - intros st w i (s & p & ->) X. eapply parses_post; [|eapply peek_parses; eauto].
    intros [s' x] (A & B). cbn in *. subst. exists s'. auto.
  - intros st w i (s & p & ->) [X L]. eapply parses_post; [|eapply maybe_parses; eauto].
    intros [s' x] (A & B). cbn in *. subst. exists s'. auto.
  - intros st w i (s & p & ->) [L X]. eapply parses_post; [|eapply collect_parses; eauto].
    intros [s' x y] (A & B & C). cbn in *. subst. exists s'. auto.
  - intros st w i (s & p & ->) [[L X] <-]. eapply parses_post; [|eapply collectn_parses; eauto].
    intros [s' x y] (A & B & C). cbn in *. subst. exists s'. auto.
  - intros st w i (s & p & ->) (L & w0 & w1 & i0 & -> & X0 & X1).
    eapply parses_post; [|eapply and_then_parses with (P0 := Post0) (P1 := Post1); eauto].
    + intros [s' x] (A & B). cbn in *. subst. exists s'. auto.
    + eapply (H2 i0); eauto.
  - intros [s0 s1] w [i0 i1] [p0 p1] (L & w0 & w1 & -> & X0 & X1). cbn in *.
    apply pair_parses; auto. intros E. now apply H1.
  - intros [s0 s1] w [i0 i1] [p0 p1] (L & w0 & w1 & -> & X0 & X1). cbn in *.
    apply tuple_snoc_parses; auto. intros E. now apply H2.
Qed.

Lemma tells_encodes : forall S I (E : Encoder S I) fmt Pre Post,
  tells E fmt Pre Post -> encodes E fmt Pre Post.
Proof.
  induction 1.
  - assumption.
  - eapply encodes_sub; eauto.
  - now apply map_from_encodes.
  - now apply try_map_from_encodes.
  - now apply map_err_encodes.
  - now apply optional_encodes.
  - eapply encodes_sub; [apply elength_encodes with (n := n); eauto|..]; auto.
    intros st (s & p & ->). cbn. auto.
  - eapply encodes_sub; [apply emax_encodes with (mx := n); eauto|..]; auto.
    + intros st (s & p & ->). cbn. auto.
    + intros [s' x y] (A & B & C). cbn in *. subst. exists s'. auto.
  - now apply pre_encodes.
  - eapply encodes_sub; [apply repeat_encodes; eauto|..]; auto.
    + intros st (s & p & ->). cbn. auto.
    + intros [s' x] (A & B). cbn in *. subst. exists s'. auto.
  - now apply pair_encodes.
  - now apply snoc_encodes.
Qed.
