(** * C86, continued: encoders *)
From Verif Require Export Props_Laws3.
From Verif Require Import Lib Fixnum Contract.
From Coq Require Import Lia ZifyBool ZifyNat ZifyN.
Set Implicit Arguments.
Local Arguments Nat.eqb : simpl never.
Local Arguments N.eqb : simpl never.
Local Arguments N.leb : simpl never.
Local Arguments N.add : simpl never.
Local Arguments N.min : simpl never.

Lemma ealike_eq : forall S I (E E' : Encoder S I) s,
  (forall fuel s buf e, enc_encode E fuel s buf e = enc_encode E' fuel s buf e) ->
  (forall fuel s i, enc_start E fuel s i = enc_start E' fuel s i) ->
  (forall s, enc_req E s = enc_req E' s) -> (forall s, enc_idle E s = enc_idle E' s) -> ealike E E' s s.
Proof.
  intros S I E E' s A B C D. apply (ealike_of (R := eq)); auto. apply em_intro; intros x ? <-.
  - intros. rewrite A. destruct (enc_encode E' fuel x buf e) as [[a b] r]. eauto 8.
  - intros. rewrite B. destruct (enc_start E' fuel x i) as [a r]. eauto 8.
  - auto.
  - auto.
Qed.

(** ** [map_from], [try_map_from], [map_err] *)
Theorem C86_map_from_id : forall S I (E : Encoder S I) (f : I -> I) s, (forall i, f i = i) -> ealike (map_from_encoder E f) E s s.
Proof. intros S I E f s F. apply ealike_eq; auto. intros. cbn. now rewrite F. Qed.
Theorem C86_map_from_map_from : forall S I T U (E : Encoder S I) (f : T -> I) (g : U -> T) s,
  ealike (map_from_encoder (map_from_encoder E f) g) (map_from_encoder E (fun u => f (g u))) s s.
Proof. intros. now apply ealike_eq. Qed.
Theorem C86_try_map_from_total : forall S I T (E : Encoder S I) (f : T -> I) (g : T -> I + ErrorKind) s,
  (forall t, g t = inl (f t)) -> ealike (try_map_from_encoder E g) (map_from_encoder E f) s s.
Proof. intros S I T E f g s G. apply ealike_eq; auto. intros. cbn. now rewrite G. Qed.
Theorem C86_try_map_from_try_map_from : forall S I T U (E : Encoder S I) (f : T -> I + ErrorKind) (g : U -> T + ErrorKind) s,
  ealike (try_map_from_encoder (try_map_from_encoder E f) g) (try_map_from_encoder E (and_also g f)) s s.
Proof. intros. apply ealike_eq; auto. intros. cbn. unfold and_also. now destruct (g i). Qed.
Theorem C86_enc_map_err_id : forall S I (E : Encoder S I) f s, (forall k, f k = k) -> ealike (map_err_encoder E f) E s s.
Proof.
  intros S I E f s F. apply ealike_eq; auto; intros; cbn.
  - destruct (enc_encode E fuel s0 buf e) as [[? ?] [?|?| |]]; cbn; now rewrite ?F.
  - destruct (enc_start E fuel s0 i) as [? [?|?| |]]; cbn; now rewrite ?F.
Qed.
Theorem C86_enc_map_err_map_err : forall S I (E : Encoder S I) f g s,
  ealike (map_err_encoder (map_err_encoder E f) g) (map_err_encoder E (fun k => g (f k))) s s.
Proof.
  intros S I E f g s. apply ealike_eq; auto; intros; cbn.
  - now destruct (enc_encode E fuel s0 buf e) as [[? ?] [?|?| |]].
  - now destruct (enc_start E fuel s0 i) as [? [?|?| |]].
Qed.
Theorem C86_map_from_map_err : forall S I T (E : Encoder S I) (f : T -> I) g s,
  ealike (map_err_encoder (map_from_encoder E f) g) (map_from_encoder (map_err_encoder E g) f) s s.
Proof. intros. now apply ealike_eq. Qed.
Print Assumptions C86_map_from_id.
Print Assumptions C86_map_from_map_from.
Print Assumptions C86_try_map_from_total.
Print Assumptions C86_try_map_from_try_map_from.
Print Assumptions C86_enc_map_err_id.
Print Assumptions C86_enc_map_err_map_err.
Print Assumptions C86_map_from_map_err.

(** ** [map_from] moves out of the other combinators *)
Section MapFrom.
  Context {S I T : Type} (E : Encoder S I) (f : T -> I).

  Theorem C86_map_from_length : forall s, ealike (length_encoder (map_from_encoder E f)) (map_from_encoder (length_encoder E) f) s s.
  Proof. intros. now apply ealike_eq. Qed.
  Theorem C86_map_from_max_bytes : forall s, ealike (max_encoder (map_from_encoder E f)) (map_from_encoder (max_encoder E) f) s s.
  Proof. intros. now apply ealike_eq. Qed.
  Theorem C86_map_from_slice : forall s, ealike (slice_encoder (map_from_encoder E f)) (map_from_encoder (slice_encoder E) f) s s.
  Proof. intros. now apply ealike_eq. Qed.
  Theorem C86_map_from_optional : forall s,
    ealike (optional_encoder (map_from_encoder E f)) (map_from_encoder (optional_encoder E) (option_map f)) s s.
  Proof. intros. apply ealike_eq; auto. now intros fuel x [i|]. Qed.
  Lemma map_from_all : forall fuel ifuel s buf w,
    encode_all_loop (map_from_encoder E f) fuel ifuel s buf w = encode_all_loop E fuel ifuel s buf w.
  Proof.
    induction fuel as [|fuel IH]; intros; cbn [encode_all_loop map_from_encoder enc_idle enc_encode]; auto. destruct (enc_idle E s); auto.
    destruct (enc_encode E ifuel s buf (eos_new false)) as [[s' b'] [n|k| |]]; auto.
    destruct (n <=? length b'); auto. destruct (wr_write_all w (firstn n b')) as [w' [?|?| |]]; auto.
    destruct (negb (enc_idle E s') && (n =? 0)); [reflexivity|]. now rewrite IH.
  Qed.
  Theorem C86_map_from_pre_encode : forall s, ealike (pre_encoder (map_from_encoder E f)) (map_from_encoder (pre_encoder E) f) s s.
  Proof.
    intros. apply ealike_eq; auto. intros. cbn. unfold pre_start, encode_into_bytes. cbn [enc_start map_from_encoder enc_req enc_encode enc_idle].
    destruct (enc_start E fuel (pre_inner s0) (f i)) as [s1 [?|?| |]]; auto.
    destruct (enc_req E s1) as [[?| |]|?| |]; auto. unfold encode_all. now rewrite map_from_all.
  Qed.

  (** The items of [repeat]; of [last] the item given to the constructor. *)
  Lemma map_from_pull : forall fuel items s,
    repeat_pull E fuel s (map f items) =
    match repeat_pull (map_from_encoder E f) fuel s items with
    | PullGo s r => PullGo s (map f r) | PullDone s => PullDone s | PullFail s r x => PullFail s (map f r) x end.
  Proof.
    induction items as [|i items IH]; intros s; cbn; destruct (enc_idle E s); auto.
    destruct (enc_start E fuel s (f i)) as [s' [?|?| |]]; auto.
  Qed.
  Definition mapped_items (a : Repeat S T) (b : Repeat S I) : Prop :=
    rp_inner a = rp_inner b /\ option_map (map f) (rp_items a) = rp_items b.
  Lemma map_from_loop : forall fuel n a b off buf e, mapped_items a b ->
    exists a' b' buf' r, repeat_loop (map_from_encoder E f) n fuel a off buf e = (a', buf', r) /\
                         repeat_loop E n fuel b off buf e = (b', buf', r) /\ mapped_items a' b'.
  Proof.
    induction n as [|n IH]; intros [s it] [sb itb] off buf e [H1 H2]; cbn in H1, H2; subst; cbn [repeat_loop].
    { do 4 eexists; split; [reflexivity|]; split; [reflexivity|]. split; reflexivity. }
    cbn [rp_items rp_inner enc_encode map_from_encoder].
    set (items := match it with Some l => l | None => [] end).
    replace (match option_map (map f) it with Some l => l | None => [] end) with (map f items) by (subst items; now destruct it).
    rewrite map_from_pull. destruct (repeat_pull (map_from_encoder E f) fuel sb items) as [s1 rest|s1|s1 rest r].
    - assert (W : mapped_items (mkRepeat s1 (match it with Some _ => Some rest | None => None end))
                               (mkRepeat s1 (match option_map (map f) it with Some _ => Some (map f rest) | None => None end)))
        by (split; auto; now destruct it).
      destruct (slice_from off buf) as [b|]; [|do 4 eexists; split; [reflexivity|]; split; [reflexivity|]; exact W].
      destruct (enc_encode E fuel s1 b e) as [[s2 b2] [m|k| |]];
        try (do 4 eexists; split; [reflexivity|]; split; [reflexivity|]; split; auto; now destruct it).
      destruct (m =? 0); [do 4 eexists; split; [reflexivity|]; split; [reflexivity|]; split; auto; now destruct it|].
      apply IH. split; auto; now destruct it.
    - do 4 eexists; split; [reflexivity|]; split; [reflexivity|]. split; auto.
    - do 4 eexists; split; [reflexivity|]; split; [reflexivity|]. split; auto; now destruct it.
  Qed.
  Theorem C86_map_from_repeat : forall s,
    ealike (repeat_encoder (map_from_encoder E f)) (map_from_encoder (repeat_encoder E) (map f)) (repeat_new s) (repeat_new s).
  Proof.
    intros s. apply (ealike_of (R := mapped_items)); [|split; auto]. apply em_intro; intros a b H.
    - intros. cbn. now apply map_from_loop.
    - destruct a as [x it], b as [xb itb], H as [H1 H2]. cbn in *. subst. intros fuel i. unfold repeat_idle. cbn.
      destruct it; cbn; do 3 eexists; (split; [reflexivity|]; split; [reflexivity|]); split; auto.
    - destruct a as [x it], b as [xb itb], H as [H1 H2]. cbn in *. subst. now destruct it.
    - destruct a as [x it], b as [xb itb], H as [H1 H2]. cbn in *. subst. now destruct it.
  Qed.
  Theorem C86_map_from_last : forall s t, ealike (last_encoder (map_from_encoder E f)) (last_encoder E) (last_new s t) (last_new s (f t)).
  Proof.
    intros s t.
    apply (ealike_of (R := fun (a : Last S T) (b : Last S I) => la_inner a = la_inner b /\ option_map f (la_item a) = la_item b)); [|split; auto].
    apply em_intro; intros [x it] [xb itb] [H1 H2]; cbn in *; subst.
    - intros. unfold last_encode. cbn. destruct (enc_idle E xb), it as [i|]; cbn.
      + destruct (enc_start E fuel xb (f i)) as [s1 [?|?| |]];
          [destruct (enc_encode E fuel s1 buf e) as [[? ?] ?]|..]; do 4 eexists; (split; [reflexivity|]; split; [reflexivity|]; split; auto).
      + destruct (enc_encode E fuel xb buf e) as [[? ?] ?]. do 4 eexists; (split; [reflexivity|]; split; [reflexivity|]; split; auto).
      + destruct (enc_encode E fuel xb buf e) as [[? ?] ?]. do 4 eexists; (split; [reflexivity|]; split; [reflexivity|]; split; auto).
      + destruct (enc_encode E fuel xb buf e) as [[? ?] ?]. do 4 eexists; (split; [reflexivity|]; split; [reflexivity|]; split; auto).
    - intros _ [].
    - now destruct it.
    - now destruct it.
  Qed.
End MapFrom.
Print Assumptions C86_map_from_length.
Print Assumptions C86_map_from_max_bytes.
Print Assumptions C86_map_from_slice.
Print Assumptions C86_map_from_optional.
Print Assumptions C86_map_from_pre_encode.
Print Assumptions C86_map_from_repeat.
Print Assumptions C86_map_from_last.
Theorem C86_map_from_tuple : forall S0 S1 I0 I1 T0 T1 (A : Encoder S0 I0) (B : Encoder S1 I1) (f : T0 -> I0) (g : T1 -> I1) s,
  ealike (tuple2_encoder (map_from_encoder A f) (map_from_encoder B g))
         (map_from_encoder (tuple2_encoder A B) (fun t => (f (fst t), g (snd t)))) s s.
Proof. intros. now apply ealike_eq. Qed.
Print Assumptions C86_map_from_tuple.

(** ** The same wrapper twice *)
Theorem C86_optional_twice : forall S I (E : Encoder S I) s,
  ealike (optional_encoder (optional_encoder E))
         (map_from_encoder (optional_encoder E) (fun i => match i with Some j => j | None => None end)) s s.
Proof. intros. apply ealike_eq; auto. now intros fuel x [[i|]|]. Qed.
Print Assumptions C86_optional_twice.

(** [max_bytes(a)] and [max_bytes(b)] are [max_bytes(min(a, b))], before and after errors, until a count of bytes leaves [u64]. *)
Definition encode_panics (b : enc_obs) : Prop := match b with ObEncode _ Panic => True | _ => False end.
Inductive max_rel {S} : MaxBytes (MaxBytes S) -> MaxBytes S -> Prop :=
| mr_in : forall s c m1 m2, (c <= N.min m1 m2)%N -> max_rel (mkMax (mkMax s c m1) c m2) (mkMax s c (N.min m1 m2))
| mr_over : forall s c1 c2 c m1 m2, (m1 < c1 \/ m2 < c2)%N -> (c1 <= c)%N -> (c2 <= c)%N ->
    max_rel (mkMax (mkMax s c1 m1) c2 m2) (mkMax s c (N.min m1 m2)).
Theorem C86_enc_max_bytes_twice : forall S I (E : Encoder S I) s m1 m2 ops,
  Forall (fun b => ~ encode_panics b) (enc_trace (max_encoder E) (mkMax s 0 (N.min m1 m2)) ops) ->
  enc_trace (max_encoder (max_encoder E)) (mkMax (mkMax s 0 m1) 0 m2) ops =
  enc_trace (max_encoder E) (mkMax s 0 (N.min m1 m2)) ops.
Proof.
  intros S I E s m1 m2 ops.
  assert (G : forall x y, max_rel x y -> Forall (fun b => ~ encode_panics b) (enc_trace (max_encoder E) y ops) ->
    enc_trace (max_encoder (max_encoder E)) x ops = enc_trace (max_encoder E) y ops); [|apply G; constructor; lia].
  clear. induction ops as [|o ops IH]; intros x y R F; auto.
  destruct o as [fuel buf e|fuel i| |].
  - cbn in F |- *. unfold max_encode in F |- *. cbn [enc_encode max_encoder] in F |- *. unfold max_encode in F |- *.
    cbn [enc_idle max_encoder]. cbn [mx_inner] in F |- *.
    destruct R as [s c m1 m2 L|s c1 c2 c m1 m2 O L1 L2]; cbn [mx_inner mx_consumed mx_max] in *;
      destruct (enc_encode E fuel s buf e) as [[s' b'] [n|k| |]];
      try (inversion F; subst; f_equal; apply IH; auto; constructor; auto; fail).
    + unfold u64_add in F |- *. destruct (c + N.of_nat n <=? u64_max)%N eqn:U; [|inversion F; subst; cbn in *; tauto].
      destruct (c + N.of_nat n <=? N.min m1 m2)%N eqn:K.
      * replace (c + N.of_nat n <=? m1)%N with true by lia. rewrite U. replace (c + N.of_nat n <=? m2)%N with true by lia.
        cbn [mx_inner enc_idle]. inversion F; subst. f_equal. apply IH; auto.
        destruct (enc_idle E s'); constructor; lia.
      * inversion F; subst. destruct (c + N.of_nat n <=? m1)%N eqn:K1.
        -- rewrite U. replace (c + N.of_nat n <=? m2)%N with false by lia. f_equal. apply IH; auto. apply mr_over; destruct (enc_idle E s'); lia.
        -- f_equal. apply IH; auto. apply mr_over; lia.
    + unfold u64_add in F |- *. destruct (c + N.of_nat n <=? u64_max)%N eqn:U; [|inversion F; subst; cbn in *; tauto].
      replace (c + N.of_nat n <=? N.min m1 m2)%N with false in * by lia.
      replace (c1 + N.of_nat n <=? u64_max)%N with true by lia. inversion F; subst.
      destruct (c1 + N.of_nat n <=? m1)%N eqn:K1.
      * replace (c2 + N.of_nat n <=? u64_max)%N with true by lia. replace (c2 + N.of_nat n <=? m2)%N with false by lia.
        f_equal. apply IH; auto. apply mr_over; destruct (enc_idle E s'); lia.
      * f_equal. apply IH; auto. apply mr_over; lia.
  - cbn in F |- *. destruct R; cbn [mx_inner mx_consumed mx_max] in *; destruct (enc_start E fuel s i) as [s' r];
      inversion F; subst; f_equal; apply IH; auto; constructor; auto.
  - cbn in F |- *. inversion F; subst. f_equal; [destruct R; reflexivity|]. now apply IH.
  - cbn in F |- *. inversion F; subst. f_equal; [destruct R; reflexivity|]. now apply IH.
Qed.
Print Assumptions C86_enc_max_bytes_twice.
