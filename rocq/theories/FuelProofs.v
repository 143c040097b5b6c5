(** * Proofs that the fuel does not matter. *)
From Coq Require Import Lia ZifyBool ZifyNat ZifyN.
From Verif Require Export Fuel.
Set Implicit Arguments.

Definition tried_fuel {S} (t : tried S) : Prop :=
  match t with TRet _ OutOfFuel => False | _ => True end.

Lemma fuel_free_sub : forall S I J (D : Decoder S I) (D' : Decoder S J),
  (forall fuel s buf e, dec_decode D' fuel s buf e = dec_decode D fuel s buf e) ->
  fuel_free D -> fuel_free D'.
Proof. intros S I J D D' A H f f' s buf e L. rewrite !A. now apply H. Qed.
Lemma fuel_free_const : forall S I (D : Decoder S I),
  (forall f f' s buf e, dec_decode D f s buf e = dec_decode D f' s buf e) -> fuel_free D.
Proof. intros S I D A f f' s buf e L _. apply A. Qed.

Section One.
Context {S I : Type} (D : Decoder S I) (HD : fuel_free D).

(** Use the hypothesis for an inner call: either it ran out of fuel or it is stable. *)
Lemma inner_fuel : forall f f' s buf e, f <= f' ->
  dec_decode D f' s buf e = dec_decode D f s buf e \/ exists s', dec_decode D f s buf e = (s', OutOfFuel).
Proof.
  intros f f' s buf e L. destruct (dec_decode D f s buf e) as [s1 r] eqn:E.
  destruct r; try (left; rewrite <- E; apply HD; auto; rewrite E; discriminate). right; eauto.
Qed.
Ltac inner L s buf e :=
  let q := fresh in let E := fresh "E" in
  destruct (@inner_fuel _ _ s buf e L) as [E|[q E]]; rewrite E; clear E; [auto|try (cbn; intros XX; now destruct XX)].

Lemma try_fuel : forall f f' s off buf e, f <= f' -> tried_fuel (try_decode D f s off buf e) ->
  try_decode D f' s off buf e = try_decode D f s off buf e.
Proof.
  intros f f' s off buf e L. unfold try_decode. destruct (dec_idle D s); auto.
  destruct (slice_from off buf) as [b|]; auto. inner L s b e.
Qed.
Lemma length_fuel : fuel_free (length_decoder D).
Proof.
  intros f f' [s ex rm] buf e L. cbn. unfold length_decode; cbn.
  set (limit := N.min (len buf) rm). set (b := firstn (N.to_nat limit) buf).
  set (e' := eos_with_remaining (Finite (rm - limit))).
  destruct (bc_to_u64 _) as [rem|]; [destruct (u64_add _ _); [destruct (_ <=? _)%N; auto|auto]|]; inner L s b e'.
Qed.
Lemma max_fuel : fuel_free (max_decoder D).
Proof.
  intros f f' [s c mx] buf e L. cbn. unfold max_decode; cbn. destruct (max_check _ _ _); auto. inner L s buf e.
Qed.
Lemma omit_fuel : fuel_free (omit_decoder D).
Proof. intros f f' [s b] buf e L. cbn. destruct b; auto. inner L s buf e. Qed.
Lemma peek_fuel : fuel_free (peek_decoder D).
Proof. intros f f' [s o] buf e L. cbn. unfold peek_decode; cbn. destruct o; auto. inner L s buf e. Qed.
Lemma maybe_fuel : fuel_free (maybe_decoder D).
Proof.
  intros f f' [s b] buf e L. cbn. unfold maybe_decode; cbn.
  match goal with |- context [dec_decode D f s buf ?x] => set (e' := x) end. inner L s buf e'.
Qed.
Lemma slice_fuel : fuel_free (slice_decoder D).
Proof.
  intros f f' [s c] buf e L. cbn. unfold slice_decode; cbn. destruct (eos_back _ _) as [e'|]; auto.
  match goal with |- context [dec_decode D f s ?x] => set (b := x) end. inner L s b e'.
Qed.
Lemma map_err_fuel : forall g, fuel_free (map_err_decoder D g).
Proof. intros g f f' s buf e L. cbn. inner L s buf e. Qed.
Lemma collect_loop_fuel : forall n n' f f' s items off buf e, n <= n' -> f <= f' ->
  snd (collect_loop D n f s items off buf e) <> OutOfFuel ->
  collect_loop D n' f' s items off buf e = collect_loop D n f s items off buf e.
Proof.
  induction n as [|n IH]; intros n' f f' s items off buf e Ln Lf.
  - cbn [collect_loop]. destruct n'; cbn [collect_loop]; destruct (off <? length buf); auto; intros XX; now destruct XX.
  - destruct n' as [|n']; [lia|]. cbn [collect_loop]. destruct (off <? length buf); auto.
    destruct (try_decode D f s off buf e) as [t o|t r] eqn:T.
    + rewrite (try_fuel s off buf e Lf), T by (rewrite T; exact Logic.I).
      destruct (dec_finish D t) as [u [i| | |]]; auto. intros XX; apply IH; auto; lia.
    + destruct r; try (rewrite (try_fuel s off buf e Lf), T by (rewrite T; exact Logic.I); auto).
      cbn. intros XX; now destruct XX.
Qed.
Lemma collect_fuel : fuel_free (collect_decoder D).
Proof. intros f f' [s it eos] buf e L. cbn. destruct eos; auto. now apply collect_loop_fuel. Qed.
Lemma collectn_fuel : fuel_free (collectn_decoder D).
Proof.
  intros f f' [s rm it] buf e L. cbn. generalize 0 as off. revert s it.
  induction rm as [|rm IH]; intros s it off; [auto|]. cbn [collectn_loop].
  destruct (off <? length buf); auto.
  destruct (try_decode D f s off buf e) as [t o|t r] eqn:T.
  + rewrite (try_fuel s off buf e L), T by (rewrite T; exact Logic.I).
    destruct (dec_finish D t) as [u [i| | |]]; auto.
  + destruct r; try (rewrite (try_fuel s off buf e L), T by (rewrite T; exact Logic.I); auto).
    cbn. intros XX; now destruct XX.
Qed.
End One.

Section Two.
Context {S0 S1 I0 I1 : Type} (D0 : Decoder S0 I0) (D1 : Decoder S1 I1)
  (H0 : fuel_free D0) (H1 : fuel_free D1).
Lemma pair_fuel : fuel_free (tuple2_decoder D0 D1).
Proof.
  intros f f' [s0 s1] buf e L.
  unfold tuple2_decoder, tuple_of_dec_parts, dec_decode, dec_parts2, dp_snoc, dp_decode, dp_one. cbn [fst snd].
  destruct (try_decode D0 f s0 0 buf e) as [t0 o0|t0 r] eqn:T.
  - rewrite (try_fuel H0 s0 0 buf e L), T by (rewrite T; exact Logic.I).
    destruct (try_decode D1 f s1 o0 buf e) as [t1 o1|t1 r] eqn:T1.
    + rewrite (try_fuel H1 s1 o0 buf e L), T1 by (rewrite T1; exact Logic.I). auto.
    + destruct r; try (rewrite (try_fuel H1 s1 o0 buf e L), T1 by (rewrite T1; exact Logic.I); auto).
      cbn. intros XX; now destruct XX.
  - destruct r; try (rewrite (try_fuel H0 s0 0 buf e L), T by (rewrite T; exact Logic.I); auto).
    cbn. intros XX; now destruct XX.
Qed.
Lemma and_then_fuel : forall g, fuel_free (and_then_decoder D0 D1 g).
Proof.
  assert (B : forall f f' s0 s1 off buf e, f <= f' ->
     snd (and_then_body (S0 := S0) D1 f s0 s1 off buf e) <> OutOfFuel ->
     and_then_body (S0 := S0) D1 f' s0 s1 off buf e = and_then_body D1 f s0 s1 off buf e).
  { intros f f' s0 s1 off buf e L. unfold and_then_body.
    destruct (try_decode D1 f s1 off buf e) as [t1 o1|t1 r] eqn:T1.
    + rewrite (try_fuel H1 s1 off buf e L), T1 by (rewrite T1; exact Logic.I). auto.
    + destruct r; try (rewrite (try_fuel H1 s1 off buf e L), T1 by (rewrite T1; exact Logic.I); auto).
      cbn. intros XX; now destruct XX. }
  intros g f f' [s0 [s1|]] buf e L; cbn; unfold and_then_decode; cbn; auto.
  destruct (try_decode D0 f s0 0 buf e) as [t0 o0|t0 r] eqn:T.
  - rewrite (try_fuel H0 s0 0 buf e L), T by (rewrite T; exact Logic.I).
    destruct (dec_finish D0 t0) as [u [i| | |]]; auto.
  - destruct r; try (rewrite (try_fuel H0 s0 0 buf e L), T by (rewrite T; exact Logic.I); auto).
    cbn. intros XX; now destruct XX.
Qed.
End Two.

Theorem composed_fuel : forall S I (D : Decoder S I) M B q Item Conf Init,
  composed D M B q Item Conf Init -> fuel_free D.
Proof.
  induction 1; try (apply fuel_free_const; reflexivity); auto;
    try (eapply fuel_free_sub; [|eassumption]; reflexivity);
    auto using map_err_fuel, and_then_fuel, omit_fuel, collect_fuel, collectn_fuel, length_fuel,
      max_fuel, slice_fuel, peek_fuel, maybe_fuel, pair_fuel.
  intros f f' s buf e. destruct (tuple_snoc_eq D1 H) as (A & _). rewrite <- !A.
  now apply pair_fuel.
Qed.

(** ** Encoders *)
Definition etried_fuel {S} (t : tried S * list byte) : Prop := tried_fuel (fst t).

Section EncOne.
Context {S I : Type} (E : Encoder S I) (HE : fuel_free_enc E).
Lemma einner_fuel : forall f f' s buf e, f <= f' ->
  enc_encode E f' s buf e = enc_encode E f s buf e \/
  exists s' b', enc_encode E f s buf e = (s', b', OutOfFuel).
Proof.
  intros f f' s buf e L. destruct (enc_encode E f s buf e) as [[s1 b1] r] eqn:X.
  destruct r; try (left; rewrite <- X; apply HE; auto; rewrite X; discriminate). right; eauto.
Qed.
Lemma estart_fuel : forall f f' s i, f <= f' ->
  enc_start E f' s i = enc_start E f s i \/ exists s', enc_start E f s i = (s', OutOfFuel).
Proof.
  intros f f' s i L. destruct (enc_start E f s i) as [s1 r] eqn:X.
  destruct r; try (left; rewrite <- X; apply HE; auto; rewrite X; discriminate). right; eauto.
Qed.
Ltac einner L s buf e :=
  let q := fresh in let b := fresh in let E := fresh "E" in
  destruct (@einner_fuel _ _ s buf e L) as [E|(q & b & E)]; rewrite E; clear E; [auto|try (cbn; intros XX; now destruct XX)].
Ltac estart L s i :=
  let q := fresh in let E := fresh "E" in
  destruct (@estart_fuel _ _ s i L) as [E|(q & E)]; rewrite E; clear E; [auto|try (cbn; intros XX; now destruct XX)].

Lemma etry_fuel : forall f f' s off buf e, f <= f' -> etried_fuel (try_encode E f s off buf e) ->
  try_encode E f' s off buf e = try_encode E f s off buf e.
Proof.
  intros f f' s off buf e L. unfold try_encode. destruct (enc_idle E s); auto.
  destruct (slice_from off buf) as [b|]; auto. einner L s b e.
Qed.
Lemma emap_err_fuel : forall g, fuel_free_enc (map_err_encoder E g).
Proof.
  intros g. split.
  - intros f f' s i L. cbn. estart L s i.
  - intros f f' s buf e L. cbn. einner L s buf e.
Qed.
Lemma emap_from_fuel : forall T (g : T -> I), fuel_free_enc (map_from_encoder E g).
Proof. intros T g. split; [intros f f' s i; cbn; apply HE|apply HE]. Qed.
Lemma etry_map_from_fuel : forall T (g : T -> I + ErrorKind), fuel_free_enc (try_map_from_encoder E g).
Proof. intros T g. split; [intros f f' s i; cbn; destruct (g i); auto; apply HE|apply HE]. Qed.
Lemma eoptional_fuel : fuel_free_enc (optional_encoder E).
Proof. split; [intros f f' s i; cbn; destruct i; auto; apply HE|apply HE]. Qed.
Lemma elength_fuel : fuel_free_enc (length_encoder E).
Proof.
  split.
  - intros f f' [s ex rm] i L. cbn. destruct (_ =? _)%N; auto. estart L s i.
  - intros f f' [s ex rm] buf e L. cbn. unfold length_encode; cbn. destruct (_ && _); auto.
    match goal with |- context [enc_encode E f s ?x ?y] => set (b := x); set (e' := y) end.
    einner L s b e'.
Qed.
Lemma emax_fuel : fuel_free_enc (max_encoder E).
Proof.
  split.
  - intros f f' [s c mx] i L. cbn. estart L s i.
  - intros f f' [s c mx] buf e L. cbn. unfold max_encode; cbn. einner L s buf e.
Qed.
Lemma eslice_fuel : fuel_free_enc (slice_encoder E).
Proof.
  split.
  - intros f f' [s c] i L. cbn. estart L s i.
  - intros f f' [s c] buf e L. cbn. unfold slice_encode; cbn.
    match goal with |- context [eos_back ?x ?y] => destruct (eos_back x y) as [e'|]; auto end.
    match goal with |- context [enc_encode E f s ?x] => set (b := x) end. einner L s b e'.
Qed.
Lemma elast_fuel : fuel_free_enc (last_encoder E).
Proof.
  split; [intros f f' s []|].
  intros f f' [s o] buf e L. cbn. unfold last_encode; cbn.
  destruct (enc_idle E s); [|einner L s buf e]. destruct o as [i|]; [|einner L s buf e].
  estart L s i. destruct (enc_start E f s i) as [s1 [u| | |]]; auto. einner L s1 buf e.
Qed.
Lemma repeat_pull_fuel : forall f f' items s, f <= f' ->
  (forall s1 rest, repeat_pull E f s items <> PullFail s1 rest OutOfFuel) ->
  repeat_pull E f' s items = repeat_pull E f s items.
Proof.
  intros f f' items. induction items as [|i items IH]; intros s L; cbn; auto.
  destruct (enc_idle E s); auto. estart L s i.
  - destruct (enc_start E f s i) as [s1 [u| | |]]; auto.
  - intros X. exfalso. cbn in X. eapply X; reflexivity.
Qed.
Lemma repeat_loop_fuel : forall n n' f f' st off buf e, n <= n' -> f <= f' ->
  snd (repeat_loop E n f st off buf e) <> OutOfFuel ->
  repeat_loop E n' f' st off buf e = repeat_loop E n f st off buf e.
Proof.
  induction n as [|n IH]; intros n' f f' [s its] off buf e Ln Lf; [cbn; intros XX; now destruct XX|].
  destruct n' as [|n']; [lia|]. cbn [repeat_loop rp_items rp_inner].
  set (items := match its with Some l => l | None => [] end).
  destruct (repeat_pull E f s items) as [s1 rest|s1|s1 rest r] eqn:P.
  - rewrite (repeat_pull_fuel items s Lf), P by (intros; rewrite P; discriminate).
    destruct (slice_from off buf) as [b|]; auto. einner Lf s1 b e.
    destruct (enc_encode E f s1 b e) as [[s2 b2] [k| | |]]; auto. destruct (k =? 0); auto. intros XX; apply IH; auto; lia.
  - rewrite (repeat_pull_fuel items s Lf), P by (intros; rewrite P; discriminate). auto.
  - intros X. rewrite (repeat_pull_fuel items s Lf), P; auto.
    intros s2 rest2. rewrite P. intros [= -> -> ->]. now apply X.
Qed.
Lemma erepeat_fuel : fuel_free_enc (repeat_encoder E).
Proof.
  split; [intros f f' s i L _; reflexivity|].
  intros f f' st buf e L. cbn. now apply repeat_loop_fuel.
Qed.
Lemma encode_all_loop_fuel : forall n n' f f' s buf w, n <= n' -> f <= f' ->
  snd (encode_all_loop E n f s buf w) <> OutOfFuel ->
  encode_all_loop E n' f' s buf w = encode_all_loop E n f s buf w.
Proof.
  induction n as [|n IH]; intros n' f f' s buf w Ln Lf.
  - destruct n'; cbn [encode_all_loop]; destruct (enc_idle E s); auto; intros X; now destruct X.
  - destruct n' as [|n']; [lia|]. cbn [encode_all_loop]. destruct (enc_idle E s); auto. einner Lf s buf (eos_new false).
    destruct (enc_encode E f s buf (eos_new false)) as [[s1 b1] [k| | |]]; auto.
    destruct (k <=? length b1); auto. destruct (wr_write_all w (firstn k b1)) as [w1 [u| | |]]; auto.
    destruct (_ && _); auto. intros XX; apply IH; auto; lia.
Qed.
Lemma encode_into_bytes_fuel : forall f f' s i, f <= f' ->
  snd (encode_into_bytes E f s i) <> OutOfFuel ->
  encode_into_bytes E f' s i = encode_into_bytes E f s i.
Proof.
  intros f f' s i L. unfold encode_into_bytes. estart L s i.
  destruct (enc_start E f s i) as [s1 [u| | |]]; auto. destruct (enc_req E s1) as [[k| |]| | |]; auto.
  - destruct (_ <=? _)%N; auto. einner L s1 (repeat x00 (N.to_nat k)) (eos_new true).
  - intros X. unfold encode_all in *. rewrite (encode_all_loop_fuel s1 _ _ L L); auto.
    intros Y. apply X. destruct (encode_all_loop E f f s1 (repeat x00 io_buf_size) (mkWriter [] [])) as [[s2 w2] r2].
    cbn in Y. subst r2. reflexivity.
Qed.
Lemma epre_fuel : fuel_free_enc (pre_encoder E).
Proof.
  split; [|intros f f' s buf e L _; reflexivity].
  intros f f' [s b] i L. cbn. unfold pre_start; cbn. intros X. rewrite (encode_into_bytes_fuel s i L); auto.
  intros Y. apply X. destruct (encode_into_bytes E f s i) as [s1 r1]. cbn in Y. subst r1. reflexivity.
Qed.
End EncOne.
Section EncTwo.
Context {S0 S1 I0 I1 : Type} (E0 : Encoder S0 I0) (E1 : Encoder S1 I1)
  (H0 : fuel_free_enc E0) (H1 : fuel_free_enc E1).
Lemma epair_fuel : fuel_free_enc (tuple2_encoder E0 E1).
Proof.
  split.
  - intros f f' [s0 s1] [i0 i1] L. cbn.
    destruct (estart_fuel H0 s0 i0 L) as [X|(q & X)]; rewrite X; clear X; [|cbn; intros XX; now destruct XX].
    destruct (enc_start E0 f s0 i0) as [t0 [u| | |]]; auto.
    destruct (estart_fuel H1 s1 i1 L) as [X|(q & X)]; rewrite X; clear X; auto. cbn; intros XX; now destruct XX.
  - intros f f' [s0 s1] buf e L.
    unfold tuple2_encoder, tuple_of_enc_parts, enc_encode, enc_parts2, ep_snoc, ep_encode, ep_one. cbn [fst snd].
    destruct (try_encode E0 f s0 0 buf e) as [[t0 o0|t0 r] b0] eqn:T.
    + rewrite (etry_fuel H0 s0 0 buf e L), T by (rewrite T; exact Logic.I).
      destruct (try_encode E1 f s1 o0 b0 e) as [[t1 o1|t1 r] b1] eqn:T1.
      * rewrite (etry_fuel H1 s1 o0 b0 e L), T1 by (rewrite T1; exact Logic.I). auto.
      * destruct r; try (rewrite (etry_fuel H1 s1 o0 b0 e L), T1 by (rewrite T1; exact Logic.I); auto).
        cbn. intros XX; now destruct XX.
    + destruct r; try (rewrite (etry_fuel H0 s0 0 buf e L), T by (rewrite T; exact Logic.I); auto).
      cbn. intros XX; now destruct XX.
Qed.
End EncTwo.

Theorem composed_enc_fuel : forall S I (E : Encoder S I) B l Item Conf Init,
  composed_enc E B l Item Conf Init -> fuel_free_enc E.
Proof.
  induction 1; try (split; [intros ? ? s i L _; reflexivity|intros ? ? s buf e L _; reflexivity]); auto;
    auto using emap_err_fuel, emap_from_fuel, etry_map_from_fuel, eoptional_fuel, elength_fuel, emax_fuel,
      eslice_fuel, elast_fuel, erepeat_fuel, epre_fuel, epair_fuel.
  match goal with H : eparts_ok P |- _ => destruct (etuple_snoc_sim E1 H) as (A & B & _) end.
  destruct (epair_fuel IHcomposed_enc1 IHcomposed_enc2) as [X Y].
  split.
  - intros f f' s i. rewrite <- !B. apply X.
  - intros f f' s buf e. rewrite <- !A. apply Y.
Qed.
