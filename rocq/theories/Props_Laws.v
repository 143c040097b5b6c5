(** * C86: rearranging compositions

    [dalike D D' s s'] (Twin.v): no sequence of calls, whatever the buffers and hints, tells [D] in state [s] from
    [D'] in state [s'].  By C80 the two can then be exchanged inside any composition. *)
From Verif Require Export Twin TwinProofs Observe.
From Coq Require Import Lia ZifyBool ZifyNat ZifyN.
Set Implicit Arguments.
Local Arguments Nat.eqb : simpl never.
Local Arguments Nat.ltb : simpl never.
Local Arguments N.eqb : simpl never.
Local Arguments N.leb : simpl never.
Local Arguments N.min : simpl never.

Lemma alike_of : forall S S' I (R : S -> S' -> Prop) (D : Decoder S I) (D' : Decoder S' I) s s',
  (forall s s', R s s' -> forall fuel buf e,
     exists a a' r, dec_decode D fuel s buf e = (a, r) /\ dec_decode D' fuel s' buf e = (a', r) /\ R a a') ->
  (forall s s', R s s' ->
     exists a a' r, dec_finish D s = (a, r) /\ dec_finish D' s' = (a', r) /\ R a a') ->
  (forall s s', R s s' -> dec_req D s = dec_req D' s') ->
  (forall s s', R s s' -> dec_idle D s = dec_idle D' s') ->
  R s s' -> dalike D D' s s'.
Proof. intros S S' I R D D' s s' A B C E H ops. eapply dmatch_trace; [|exact H]. apply dm_intro; auto. Qed.
Lemma ealike_of : forall S S' I (R : S -> S' -> Prop) (E : Encoder S I) (E' : Encoder S' I) s s',
  ematch R E E' -> R s s' -> ealike E E' s s'.
Proof. intros S S' I R E E' s s' M H ops. eapply ematch_trace; [exact M|exact H]. Qed.

Lemma same_call : forall A B (x : A * B), exists a a' r, x = (a, r) /\ x = (a', r) /\ a = a'.
Proof. intros A B [a r]. eauto 6. Qed.

(** ** [map], [try_map], [map_err] *)
Theorem C86_map_id : forall S I (D : Decoder S I) (f : I -> I) s, (forall i, f i = i) -> dalike (map_decoder D f) D s s.
Proof.
  intros S I D f s F. apply (alike_of eq); auto; intros s0 ? <-; cbn; auto.
  - intros. destruct (dec_decode _ _ _ _ _); eauto 6.
  - destruct (dec_finish D s0) as [? [?|?| |]]; cbn; rewrite ?F; eauto 6.
Qed.
Print Assumptions C86_map_id.
Theorem C86_map_map : forall S I T U (D : Decoder S I) (f : I -> T) (g : T -> U) s,
  dalike (map_decoder (map_decoder D f) g) (map_decoder D (fun i => g (f i))) s s.
Proof.
  intros S I T U D f g s. apply (alike_of eq); auto; intros s0 ? <-; cbn; auto.
  - intros. destruct (dec_decode _ _ _ _ _); eauto 6.
  - destruct (dec_finish D s0) as [? [?|?| |]]; cbn; eauto 6.
Qed.
Print Assumptions C86_map_map.
Theorem C86_try_map_total : forall S I T (D : Decoder S I) (f : I -> T) (g : I -> T + ErrorKind) s,
  (forall i, g i = inl (f i)) -> dalike (try_map_decoder D g) (map_decoder D f) s s.
Proof.
  intros S I T D f g s G. apply (alike_of eq); auto; intros s0 ? <-; cbn; auto.
  - intros. destruct (dec_decode _ _ _ _ _); eauto 6.
  - destruct (dec_finish D s0) as [? [?|?| |]]; cbn; rewrite ?G; eauto 6.
Qed.
Print Assumptions C86_try_map_total.
Definition and_also {I T U} (f : I -> T + ErrorKind) (g : T -> U + ErrorKind) (i : I) : U + ErrorKind :=
  match f i with inl t => g t | inr k => inr k end.
Theorem C86_try_map_try_map : forall S I T U (D : Decoder S I) (f : I -> T + ErrorKind) (g : T -> U + ErrorKind) s,
  dalike (try_map_decoder (try_map_decoder D f) g) (try_map_decoder D (and_also f g)) s s.
Proof.
  intros S I T U D f g s. apply (alike_of eq); auto; intros s0 ? <-; cbn; auto.
  - intros. destruct (dec_decode _ _ _ _ _); eauto 6.
  - unfold and_also. destruct (dec_finish D s0) as [? [i|?| |]]; cbn; eauto 6. destruct (f i); cbn; eauto 6.
Qed.
Print Assumptions C86_try_map_try_map.
Theorem C86_map_err_id : forall S I (D : Decoder S I) f s, (forall k, f k = k) -> dalike (map_err_decoder D f) D s s.
Proof.
  intros S I D f s F. apply (alike_of eq); auto; intros s0 ? <-; cbn; auto.
  - intros. destruct (dec_decode _ _ _ _ _) as [? [?|?| |]]; cbn; rewrite ?F; eauto 6.
  - destruct (dec_finish D s0) as [? [?|?| |]]; cbn; rewrite ?F; eauto 6.
Qed.
Print Assumptions C86_map_err_id.
Theorem C86_map_err_map_err : forall S I (D : Decoder S I) f g s,
  dalike (map_err_decoder (map_err_decoder D f) g) (map_err_decoder D (fun k => g (f k))) s s.
Proof.
  intros S I D f g s. apply (alike_of eq); auto; intros s0 ? <-; cbn; auto.
  - intros. destruct (dec_decode _ _ _ _ _) as [? [?|?| |]]; cbn; eauto 6.
  - destruct (dec_finish D s0) as [? [?|?| |]]; cbn; eauto 6.
Qed.
Print Assumptions C86_map_err_map_err.
Theorem C86_map_err_map : forall S I T (D : Decoder S I) f (g : I -> T) s,
  dalike (map_decoder (map_err_decoder D f) g) (map_err_decoder (map_decoder D g) f) s s.
Proof.
  intros S I T D f g s. apply (alike_of eq); auto; intros s0 ? <-; cbn; auto.
  - intros. destruct (dec_decode _ _ _ _ _) as [? [?|?| |]]; cbn; eauto 6.
  - destruct (dec_finish D s0) as [? [?|?| |]]; cbn; eauto 6.
Qed.
Print Assumptions C86_map_err_map.

(** ** [map] moves out of every other combinator.  The state of [map] is that of its inner decoder. *)
Theorem C86_map_max_bytes : forall S I T (D : Decoder S I) (f : I -> T) st,
  dalike (max_decoder (map_decoder D f)) (map_decoder (max_decoder D) f) st st.
Proof.
  intros S I T D f st. apply (alike_of eq); auto; intros s0 ? <-; cbn; auto.
  - intros. unfold max_decode. apply same_call.
  - destruct (dec_finish D _) as [? [?|?| |]]; cbn; eauto 6.
Qed.
Print Assumptions C86_map_max_bytes.
Theorem C86_map_length : forall S I T (D : Decoder S I) (f : I -> T) st,
  dalike (length_decoder (map_decoder D f)) (map_decoder (length_decoder D) f) st st.
Proof.
  intros S I T D f st. apply (alike_of eq); auto; intros s0 ? <-; cbn; auto.
  - intros. unfold length_decode. apply same_call.
  - destruct (_ =? 0)%N; [|cbn; eauto 6]. destruct (dec_finish D _) as [? [?|?| |]]; cbn; eauto 6.
Qed.
Print Assumptions C86_map_length.
Theorem C86_map_slice : forall S I T (D : Decoder S I) (f : I -> T) st,
  dalike (slice_decoder (map_decoder D f)) (map_decoder (slice_decoder D) f) st st.
Proof.
  intros S I T D f st. apply (alike_of eq); auto; intros s0 ? <-; cbn; auto.
  - intros. unfold slice_decode. apply same_call.
  - destruct (dec_finish D _) as [? [?|?| |]]; cbn; eauto 6.
Qed.
Print Assumptions C86_map_slice.
Theorem C86_map_maybe_eos : forall S I T (D : Decoder S I) (f : I -> T) st,
  dalike (maybe_decoder (map_decoder D f)) (map_decoder (maybe_decoder D) f) st st.
Proof.
  intros S I T D f st. apply (alike_of eq); auto; intros s0 ? <-; cbn; auto.
  - intros. unfold maybe_decode. apply same_call.
  - destruct (dec_finish D _) as [? [?|?| |]]; cbn; eauto 6.
Qed.
Print Assumptions C86_map_maybe_eos.
Theorem C86_map_omit : forall S I T (D : Decoder S I) (f : I -> T) st,
  dalike (omit_decoder (map_decoder D f)) (map_decoder (omit_decoder D) (option_map f)) st st.
Proof.
  intros S I T D f st. apply (alike_of eq); auto; intros s0 ? <-; cbn; auto.
  - intros. apply same_call.
  - destruct (om_omit s0); [cbn; eauto 6|]. destruct (dec_finish D _) as [? [?|?| |]]; cbn; eauto 6.
Qed.
Print Assumptions C86_map_omit.
Theorem C86_map_peekable : forall S I T (D : Decoder S I) (f : I -> T) s,
  dalike (peek_decoder (map_decoder D f)) (map_decoder (peek_decoder D) f) (peek_new s) (peek_new s).
Proof.
  intros S I T D f s.
  apply (alike_of (fun a b => pk_inner a = pk_inner b /\ pk_item a = option_map f (pk_item b))); auto;
    intros [a o] [b p] [E1 E2]; cbn in E1, E2; subst a o; cbn.
  - intros. unfold peek_decode. cbn. destruct p as [i|]; cbn; [eauto 8|].
    destruct (dec_decode D fuel b buf e) as [b1 [n|k| |]]; cbn; eauto 8.
    destruct (dec_idle D b1); cbn; eauto 8.
    destruct (dec_finish D b1) as [b2 [i|k| |]]; cbn; eauto 8.
  - destruct p; cbn; eauto 8.
  - destruct p; cbn; auto.
  - destruct p; cbn; auto.
Qed.
Print Assumptions C86_map_peekable.

Lemma map_try_decode : forall S I T (D : Decoder S I) (f : I -> T) fuel s off buf e,
  try_decode (map_decoder D f) fuel s off buf e = try_decode D fuel s off buf e.
Proof. reflexivity. Qed.
Theorem C86_map_collect : forall S I T (D : Decoder S I) (f : I -> T) s,
  dalike (collect_decoder (map_decoder D f)) (map_decoder (collect_decoder D) (map f)) (collect_new s) (collect_new s).
Proof.
  intros S I T D f s.
  set (R := fun (a : Collect S T) (b : Collect S I) => cl_inner a = cl_inner b /\ cl_items a = map f (cl_items b) /\ cl_eos a = cl_eos b).
  assert (L : forall n fuel s items off buf e, exists a a' r,
    collect_loop (map_decoder D f) n fuel s (map f items) off buf e = (a, r) /\
    collect_loop D n fuel s items off buf e = (a', r) /\ R a a').
  { induction n as [|n IH]; intros; cbn [collect_loop]; destruct (off <? length buf);
      try (do 3 eexists; split; [reflexivity|]; split; [reflexivity|]; repeat split; reflexivity).
    rewrite map_try_decode. destruct (try_decode D fuel s0 off buf e) as [s1 off1|s1 r];
      [|do 3 eexists; split; [reflexivity|]; split; [reflexivity|]; repeat split; reflexivity].
    cbn [dec_finish map_decoder]. destruct (dec_finish D s1) as [s2 [i|k| |]]; cbn [rmap rbind rcast];
      try (do 3 eexists; split; [reflexivity|]; split; [reflexivity|]; repeat split; reflexivity).
    replace (map f items ++ [f i]) with (map f (items ++ [i])) by (rewrite map_app; reflexivity). apply IH. }
  apply (alike_of R); [..|repeat split];
    intros [a is o] [b js p] (E1 & E2 & E3); cbn in E1, E2, E3; subst a is o; cbn.
  - intros. destruct p; [do 3 eexists; split; [reflexivity|]; split; [reflexivity|]; repeat split; reflexivity|]. apply L.
  - destruct p; cbn; do 3 eexists; (split; [reflexivity|]; split; [reflexivity|]; repeat split; reflexivity).
  - destruct p; auto.
  - reflexivity.
Qed.
Print Assumptions C86_map_collect.
Theorem C86_map_collectn : forall S I T (D : Decoder S I) (f : I -> T) s n,
  dalike (collectn_decoder (map_decoder D f)) (map_decoder (collectn_decoder D) (map f)) (collectn_new s n) (collectn_new s n).
Proof.
  intros S I T D f s n0.
  set (R := fun (a : CollectN S T) (b : CollectN S I) => cn_inner a = cn_inner b /\ cn_items a = map f (cn_items b) /\ cn_remaining a = cn_remaining b).
  assert (L : forall fuel n s items off buf e, exists a a' r,
    collectn_loop (map_decoder D f) fuel n s (map f items) off buf e = (a, r) /\
    collectn_loop D fuel n s items off buf e = (a', r) /\ R a a').
  { intros fuel. induction n as [|n IH]; intros; cbn [collectn_loop];
      [do 3 eexists; split; [reflexivity|]; split; [reflexivity|]; repeat split; reflexivity|].
    destruct (off <? length buf); [|do 3 eexists; split; [reflexivity|]; split; [reflexivity|]; repeat split; reflexivity].
    rewrite map_try_decode. destruct (try_decode D fuel s0 off buf e) as [s1 off1|s1 r];
      [|do 3 eexists; split; [reflexivity|]; split; [reflexivity|]; repeat split; reflexivity].
    cbn [dec_finish map_decoder]. destruct (dec_finish D s1) as [s2 [i|k| |]]; cbn [rmap rbind rcast];
      try (do 3 eexists; split; [reflexivity|]; split; [reflexivity|]; repeat split; reflexivity).
    replace (map f items ++ [f i]) with (map f (items ++ [i])) by (rewrite map_app; reflexivity). apply IH. }
  apply (alike_of R); [..|repeat split];
    intros [a o is] [b p js] (E1 & E2 & E3); cbn in E1, E2, E3; subst a is o; cbn.
  - intros. apply L.
  - destruct (p =? 0); cbn; do 3 eexists; (split; [reflexivity|]; split; [reflexivity|]; repeat split; reflexivity).
  - destruct (p =? 0); auto.
  - reflexivity.
Qed.
Print Assumptions C86_map_collectn.
(** Mapping the header first, and mapping the result. *)
Theorem C86_map_and_then_header : forall S0 S1 I0 T I1 (D0 : Decoder S0 I0) (D1 : Decoder S1 I1) (g : I0 -> T) (f : T -> S1) s0,
  dalike (and_then_decoder (map_decoder D0 g) D1 f) (and_then_decoder D0 D1 (fun i => f (g i))) (and_then_new s0) (and_then_new s0).
Proof.
  intros S0 S1 I0 T I1 D0 D1 g f s0. apply (alike_of eq); auto; intros st ? <-; cbn; auto.
  - intros. unfold and_then_decode. rewrite map_try_decode. destruct (at_inner1 st); [apply same_call|].
    destruct (try_decode D0 fuel (at_inner0 st) 0 buf e) as [s1 off|s1 r]; [|eauto 6].
    cbn. destruct (dec_finish D0 s1) as [s2 [i|k| |]]; cbn; [apply same_call|eauto 6..].
  - apply same_call.
Qed.
Print Assumptions C86_map_and_then_header.
Theorem C86_map_and_then : forall S0 S1 I0 I1 T (D0 : Decoder S0 I0) (D1 : Decoder S1 I1) (f : I0 -> S1) (g : I1 -> T) s0,
  dalike (and_then_decoder D0 (map_decoder D1 g) f) (map_decoder (and_then_decoder D0 D1 f) g) (and_then_new s0) (and_then_new s0).
Proof.
  intros S0 S1 I0 I1 T D0 D1 f g s0. apply (alike_of eq); auto; intros st ? <-; cbn; auto.
  - intros. apply same_call.
  - destruct (at_inner1 st); cbn; [|eauto 6]. destruct (dec_finish D1 _) as [? [?|?| |]]; cbn; eauto 6.
Qed.
Print Assumptions C86_map_and_then.
