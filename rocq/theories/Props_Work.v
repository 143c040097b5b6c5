(** * C89: what one call costs *)
From Coq Require Import Lia ZifyBool ZifyNat ZifyN.
From Verif Require Import Work Props_Collect.
Set Implicit Arguments.

(** ** One call each *)

Ltac inner x := match x with context [match ?y with _ => _ end] => inner y | _ => destruct x eqn:? end.
Ltac crack := repeat match goal with
  | |- context [match ?x with _ => _ end] => inner x
  | |- (_, _) = (_, _) -> _ => intros [= <- <-]
  | |- (_, _, _) = (_, _, _) -> _ => intros [= <- <- <-]
  | H : (_, _) = (_, _) |- _ => injection H as <- <-
  | H : (_, _, _) = (_, _, _) |- _ => injection H as <- <- <-
  end; subst; cbn in *; try discriminate; try (unfold at_most; cbn in *; lia).
Ltac unf := unfold length_encode, max_encode, slice_encode, last_encode, countede, length_decode, max_decode, max_check, slice_decode, maybe_decode, peek_decode, counted; cbn.
Ltac one_call := unfold calls_once; apply conj; intros *; cbn; unf; crack.


Theorem C89_once : forall S I T (D : Decoder S I) (f : I -> T) (g : I -> T + ErrorKind) h,
  calls_once (map_decoder (counted D) f) (fun st => st) 0 /\
  calls_once (try_map_decoder (counted D) g) (fun st => st) 0 /\
  calls_once (map_err_decoder (counted D) h) (fun st => st) 0 /\
  calls_once (omit_decoder (counted D)) (@om_inner _) 0 /\
  calls_once (length_decoder (counted D)) (@ln_inner _) 0 /\
  calls_once (max_decoder (counted D)) (@mx_inner _) 0 /\
  calls_once (slice_decoder (counted D)) (@sl_inner _) 0 /\
  calls_once (maybe_decoder (counted D)) (@my_inner _) 0 /\
  calls_once (peek_decoder (counted D)) (@pk_inner _ _) 1.
Proof.
  intros. do 8 (apply conj; [solve [one_call]|]). one_call.
Qed.
Print Assumptions C89_once.

Ltac one_ecall := unfold ecalls_once; apply conj; intros *; cbn; unf; crack.
Theorem C89_once_encode : forall S I T (E : Encoder S I) (f : T -> I) (g : T -> I + ErrorKind) h,
  ecalls_once (map_from_encoder (countede E) f) (fun st => st) 0 /\
  ecalls_once (try_map_from_encoder (countede E) g) (fun st => st) 0 /\
  ecalls_once (map_err_encoder (countede E) h) (fun st => st) 0 /\
  ecalls_once (optional_encoder (countede E)) (fun st => st) 0 /\
  ecalls_once (length_encoder (countede E)) (@ln_inner _) 0 /\
  ecalls_once (max_encoder (countede E)) (@mx_inner _) 0 /\
  ecalls_once (slice_encoder (countede E)) (@sl_inner _) 0 /\
  ecalls_once (last_encoder (countede E)) (@la_inner _ I) 1.
Proof.
  intros. do 7 (apply conj; [solve [one_ecall]|]). one_ecall.
Qed.
Print Assumptions C89_once_encode.

(** Tuples of any size: every component once. *)
Lemma try_once : forall S I (D : Decoder S I) fuel st off buf e,
  at_most 1 0 (snd st) (snd (tried_state (try_decode (counted D) fuel st off buf e))).
Proof. intros. unfold try_decode. unf. crack. Qed.
Lemma try_once_encode : forall S I (E : Encoder S I) fuel st off buf e,
  at_most 1 0 (snd st) (snd (tried_state (fst (try_encode (countede E) fuel st off buf e)))).
Proof. intros. unfold try_encode. unf. crack. Qed.
Lemma none : forall c, at_most 1 0 c c /\ at_most 0 1 c c.
Proof. unfold at_most. lia. Qed.

Theorem C89_tuple : forall S I (D : Decoder S I),
  parts_once (dp_one (counted D)) (fun s => s) /\
  (forall W J (P : DecParts W J), parts_once (dp_snoc P (counted D)) snd) /\
  (forall W J S' I' (P : DecParts W J) (D' : Decoder S' I') (inner : W -> S * Calls),
     parts_once P inner -> parts_once (dp_snoc P D') (fun s => inner (fst s))) /\
  (forall W J (P : DecParts W J) (inner : W -> S * Calls),
     parts_once P inner -> calls_once (tuple_of_dec_parts P) inner 0).
Proof.
  intros. apply conj; [|apply conj; [|apply conj]].
  - split; intros; [apply try_once|]. cbn. unf. crack.
  - intros. split; intros.
    + cbn [dp_decode dp_snoc]. destruct (dp_decode P fuel (fst st) off buf e); [|apply none].
      pose proof (try_once D fuel (snd st) off0 buf e). destruct (try_decode _ _ _ _ _ _); auto.
    + cbn. unf. crack.
  - intros W J S' I' P D' inner [A B]. split; intros.
    + cbn [dp_decode dp_snoc]. specialize (A fuel (fst st) off buf e).
      destruct (dp_decode P fuel (fst st) off buf e); auto.
      destruct (try_decode _ _ _ _ _ _); auto.
    + cbn. specialize (B (fst st)). destruct (dp_finish P (fst st)) as [s0 [i| | |]]; auto.
      destruct (dec_finish D' (snd st)); auto.
  - intros W J P inner [A B]. split; intros *; cbn.
    + specialize (A fuel st 0 buf e). destruct (dp_decode P fuel st 0 buf e); intros [= <- <-]; auto.
    + intros H. specialize (B st). rewrite H in B. auto.
Qed.
Print Assumptions C89_tuple.

Theorem C89_tuple_encode : forall S I (E : Encoder S I),
  eparts_once (ep_one (countede E)) (fun s => s) /\
  (forall W J (P : EncParts W J), eparts_once (ep_snoc P (countede E)) snd) /\
  (forall W J S' I' (P : EncParts W J) (E' : Encoder S' I') (inner : W -> S * Calls),
     eparts_once P inner -> eparts_once (ep_snoc P E') (fun s => inner (fst s))) /\
  (forall W J (P : EncParts W J) (inner : W -> S * Calls),
     eparts_once P inner -> ecalls_once (tuple_of_enc_parts P) inner 0).
Proof.
  intros. apply conj; [|apply conj; [|apply conj]].
  - split; intros; [apply try_once_encode|]. cbn. unf. crack.
  - intros. split; intros.
    + cbn [ep_encode ep_snoc]. destruct (ep_encode P fuel (fst st) off buf e) as [[s0 off0|s0 r] buf0]; [|apply none].
      pose proof (try_once_encode E fuel (snd st) off0 buf0 e). destruct (try_encode _ _ _ _ _ _) as [[? ?|? ?] ?]; auto.
    + cbn. unf. crack.
  - intros W J S' I' P E' inner [A B]. split; intros.
    + cbn [ep_encode ep_snoc]. specialize (A fuel (fst st) off buf e).
      destruct (ep_encode P fuel (fst st) off buf e) as [[s0 off0|s0 r] buf0]; auto.
      destruct (try_encode _ _ _ _ _ _) as [[? ?|? ?] ?]; auto.
    + cbn. specialize (B fuel (fst st) (fst i)). destruct (ep_start P fuel (fst st) (fst i)) as [s0 [x| | |]]; auto.
      destruct (enc_start E' fuel (snd st) (snd i)); auto.
  - intros W J P inner [A B]. split; intros *; cbn.
    + specialize (A fuel st 0 buf e). destruct (ep_encode P fuel st 0 buf e) as [[? ?|? ?] ?]; intros [= <- <- <-]; auto.
    + intros H. specialize (B fuel st i). rewrite H in B. auto.
Qed.
Print Assumptions C89_tuple_encode.

(** [and_then]: the first decoder once, its item taken at most once; the second decoder once, whether it was there
    before or is created by this call. *)
Theorem C89_and_then : forall S0 S1 I0 I1 (D0 : Decoder S0 I0) (D1 : Decoder S1 I1) (f : I0 -> S1 * Calls) fuel st buf e st' r,
  dec_decode (and_then_decoder (counted D0) (counted D1) f) fuel st buf e = (st', r) ->
  at_most 1 1 (snd (at_inner0 st)) (snd (at_inner0 st')) /\
  (forall s1', at_inner1 st' = Some s1' ->
     match at_inner1 st with
     | Some s1 => at_most 1 0 (snd s1) (snd s1')
     | None => exists i, at_most 1 0 (snd (f i)) (snd s1')
     end).
Proof.
  intros *. cbn. unfold and_then_decode. destruct (at_inner1 st) as [s1|].
  - unfold and_then_body. pose proof (try_once D1 fuel s1 0 buf e) as T.
    destruct (try_decode _ _ _ _ _ _); intros [= <- <-]; cbn in *; (split; [unfold at_most; lia|]); intros ? [= <-]; auto.
  - pose proof (try_once D0 fuel (at_inner0 st) 0 buf e) as T.
    destruct (try_decode _ _ _ _ _ _) as [s0 off|s0 x]; cbn in T.
    + cbn. destruct (dec_finish D0 (fst s0)) as [s0' y]. cbn.
      destruct y; try (intros [= <- <-]; cbn; split; [unfold at_most in *; cbn; lia|discriminate]).
      unfold and_then_body. pose proof (try_once D1 fuel (f a) off buf e) as T1.
      destruct (try_decode _ _ _ _ _ _); intros [= <- <-]; cbn in *; (split; [unfold at_most in *; cbn; lia|]); intros ? [= <-]; eauto.
    + intros [= <- <-]. cbn. split; [unfold at_most in *; lia|discriminate].
Qed.
Print Assumptions C89_and_then.

(** ** [collect] *)

Lemma collect_work : forall S I (D : Decoder S I) Reach fuel buf e, productive D Reach ->
  forall n s c it off st' r, Reach s -> takes_a_byte D s ->
  collect_loop (counted D) n fuel (s, c) it off buf e = (st', r) ->
  at_most (length buf - off) (length buf - off) c (snd (cl_inner st')) /\
  (forall k, r = Ok k -> off <= k /\ at_most (k - off + 1) (k - off) c (snd (cl_inner st'))).
Proof.
  intros S I D Reach fuel buf e P. induction n; intros s c it off st' r R TB; cbn [collect_loop].
  - destruct (off <? length buf); intros [= <- <-]; cbn; (split; [unfold at_most; lia|]); intros k [= <-]; unfold at_most; lia.
  - destruct (Nat.ltb_spec off (length buf)) as [L|L].
    2:{ intros [= <- <-]. cbn. split; [unfold at_most; lia|]. intros k [= <-]. unfold at_most; lia. }
    unfold try_decode. cbn [dec_idle counted fst].
    destruct (dec_idle D s) eqn:ID.
    + cbn. destruct (dec_finish D s) as [s1 x] eqn:F. destruct x as [i| | |].
      { exfalso. exact (proj1 TB ID _ _ F). }
      all: intros [= <- <-]; cbn; (split; [unfold at_most; cbn; lia|discriminate]).
    + destruct (slice_from off buf) as [b|] eqn:SL.
      2:{ intros [= <- <-]. cbn. split; [unfold at_most; lia|discriminate]. }
      cbn [dec_decode counted fst snd]. destruct (dec_decode D fuel s b e) as [s1 x] eqn:DE.
      destruct x as [k1| | |].
      2-4: intros [= <- <-]; cbn; (split; [unfold at_most; cbn; lia|discriminate]).
      cbn [dec_idle counted fst]. destruct (dec_idle D s1) eqn:ID1.
      2:{ intros [= <- <-]. cbn. split; [unfold at_most; cbn; lia|]. intros k [= <-]. unfold at_most; cbn; lia. }
      cbn [dec_finish counted fst snd]. destruct (dec_finish D s1) as [s2 y] eqn:F. destruct y as [i| | |].
      2-4: intros [= <- <-]; cbn; (split; [unfold at_most; cbn; lia|discriminate]).
      assert (K : k1 <> 0).
      { intros ->. refine (proj2 TB fuel b e s1 s2 i ID _ DE ID1 F). intros ->.
        unfold slice_from in SL. destruct (off <=? length buf) eqn:X; [|discriminate]. injection SL as SL.
        apply (f_equal (@length _)) in SL. rewrite skipn_length in SL. cbn in SL. lia. }
      intros H. pose proof (pv_decode P R DE) as R1. pose proof (pv_finish P R1 F) as R2.
      destruct (IHn _ _ _ _ _ _ R2 (pv_byte P R1 F) H) as [A B].
      split; [unfold at_most in *; cbn in *; lia|]. intros k E. destruct (B k E) as [C C'].
      split; [lia|]. unfold at_most in *; cbn in *; lia.
Qed.

(** One call, whatever its result: at most one call more than there are bytes; if it succeeds, the bytes it consumed
    bound the calls, however many it was given. *)
Theorem C89_collect : forall S I (D : Decoder S I) Reach fuel st buf e st' r,
  productive D Reach -> Reach (fst (cl_inner st)) ->
  dec_decode (collect_decoder (counted D)) fuel st buf e = (st', r) ->
  at_most (length buf + 1) (length buf + 1) (snd (cl_inner st)) (snd (cl_inner st')) /\
  (forall k, r = Ok k -> at_most (k + 2) (k + 1) (snd (cl_inner st)) (snd (cl_inner st'))).
Proof.
  intros S I D Reach fuel [[s c] it eos] buf e st' r P R. cbn [fst cl_inner] in R. cbn. destruct eos.
  { intros [= <- <-]. cbn. split; [unfold at_most; lia|]. intros k [= <-]. unfold at_most; lia. }
  destruct fuel as [|n]; cbn [collect_loop].
  { destruct (0 <? length buf); intros [= <- <-]; cbn; (split; [unfold at_most; lia|]); intros k [= <-]; unfold at_most; lia. }
  destruct (Nat.ltb_spec 0 (length buf)) as [L|L].
  2:{ intros [= <- <-]. cbn. split; [unfold at_most; lia|]. intros k [= <-]. unfold at_most; lia. }
  unfold try_decode. cbn [dec_idle counted fst].
  destruct (dec_idle D s) eqn:ID.
  - cbn [dec_finish counted fst snd]. destruct (dec_finish D s) as [s1 x] eqn:F. destruct x as [i| | |].
    2-4: intros [= <- <-]; cbn; (split; [unfold at_most; cbn; lia|discriminate]).
    intros H. destruct (@collect_work _ _ D Reach _ _ _ P _ _ _ _ _ _ _ (pv_finish P R F) (pv_byte P R F) H) as [A B].
    split; [unfold at_most in *; cbn in *; lia|]. intros k E. destruct (B k E) as [C C'].
    unfold at_most in *; cbn in *; lia.
  - destruct (slice_from 0 buf) as [b|] eqn:SL.
    2:{ intros [= <- <-]. cbn. split; [unfold at_most; lia|discriminate]. }
    cbn [dec_decode counted fst snd]. destruct (dec_decode D (Datatypes.S n) s b e) as [s1 x] eqn:DE.
    destruct x as [k1| | |].
    2-4: intros [= <- <-]; cbn; (split; [unfold at_most; cbn; lia|discriminate]).
    cbn [dec_idle counted fst]. destruct (dec_idle D s1) eqn:ID1.
    2:{ intros [= <- <-]. cbn. split; [unfold at_most; cbn; lia|]. intros k [= <-]. unfold at_most; cbn; lia. }
    cbn [dec_finish counted fst snd]. destruct (dec_finish D s1) as [s2 y] eqn:F. destruct y as [i| | |].
    2-4: intros [= <- <-]; cbn; (split; [unfold at_most; cbn; lia|discriminate]).
    intros H. pose proof (pv_decode P R DE) as R1. pose proof (pv_finish P R1 F) as R2.
    destruct (@collect_work _ _ D Reach _ _ _ P _ _ _ _ _ _ _ R2 (pv_byte P R1 F) H) as [A B].
    split; [unfold at_most in *; cbn in *; lia|]. intros k E. destruct (B k E) as [C C'].
    unfold at_most in *; cbn in *; lia.
Qed.
Print Assumptions C89_collect.

(** Over the whole life of the decoder: linear in the bytes, plus two for each call made on it. *)
Theorem C89_collect_total : forall S I (D : Decoder S I) Reach s c m k st,
  productive D Reach -> Reach s ->
  good_calls (collect_decoder (counted D)) (collect_new (s, c)) m k st ->
  at_most (k + 2 * m) (k + m) c (snd (cl_inner st)).
Proof.
  intros S I D Reach s c m k st P R H.
  assert (X : Reach (fst (cl_inner st)) /\ at_most (k + 2 * m) (k + m) c (snd (cl_inner st))); [|apply X].
  induction H as [|m k s1 fuel buf e s2 n H [R1 IH] E].
  - cbn. split; auto. unfold at_most. lia.
  - split.
    + refine (@collect_keeps _ _ (counted D) (fun x => Reach (fst x)) _ _ fuel s1 buf e s2 (Ok n) R1 E).
      * intros t f b e' t' r Rt. cbn. destruct (dec_decode D f (fst t) b e') eqn:Q. intros [= <- <-]. exact (pv_decode P Rt Q).
      * intros t t' r Rt. cbn. destruct (dec_finish D (fst t)) eqn:Q. intros [= <- <-]. exact (pv_finish P Rt Q).
    + destruct (@C89_collect _ _ D Reach fuel s1 buf e s2 (Ok n) P R1 E) as [_ B]. specialize (B n eq_refl). unfold at_most in *. lia.
Qed.
Print Assumptions C89_collect_total.

(** ** [collectn] *)

Lemma collectn_work : forall S I (D : Decoder S I) fuel buf e remaining s it off st' r,
  collectn_loop (counted D) fuel remaining s it off buf e = (st', r) ->
  at_most remaining remaining (snd s) (snd (cn_inner st')).
Proof.
  intros S I D fuel buf e. induction remaining as [|n IH]; intros s it off st' r; cbn [collectn_loop].
  { intros [= <- <-]. cbn. unfold at_most. lia. }
  destruct (off <? length buf). 2:{ intros [= <- <-]. cbn. unfold at_most. lia. }
  pose proof (try_once D fuel s off buf e) as T. destruct (try_decode _ _ _ _ _ _) as [s1 off1|s1 x]; cbn in T.
  2:{ intros [= <- <-]. cbn. unfold at_most in *. lia. }
  cbn [dec_finish counted]. destruct (dec_finish D (fst s1)) as [s2 y] eqn:F. destruct y as [i| | |].
  2-4: intros [= <- <-]; unfold at_most in *; cbn in *; lia.
  intros H. apply IH in H. unfold at_most in *. cbn in *. lia.
Qed.

(** Any decoder inside, any state: no more calls than items are missing. *)
Theorem C89_collectn : forall S I (D : Decoder S I) fuel st buf e st' r,
  dec_decode (collectn_decoder (counted D)) fuel st buf e = (st', r) ->
  at_most (cn_remaining st) (cn_remaining st) (snd (cn_inner st)) (snd (cn_inner st')).
Proof. intros S I D fuel st buf e st' r. cbn. apply collectn_work. Qed.
Print Assumptions C89_collectn.

Lemma collectn_bytes : forall S I (D : Decoder S I) Reach fuel buf e, productive D Reach ->
  forall n s c it off st' r, Reach s -> takes_a_byte D s ->
  collectn_loop (counted D) fuel n (s, c) it off buf e = (st', r) ->
  at_most (length buf - off) (length buf - off) c (snd (cn_inner st')).
Proof.
  intros S I D Reach fuel buf e P. induction n; intros s c it off st' r R TB; cbn [collectn_loop].
  - intros [= <- <-]; cbn. unfold at_most; lia.
  - destruct (Nat.ltb_spec off (length buf)) as [L|L].
    2:{ intros [= <- <-]. cbn. unfold at_most; lia. }
    unfold try_decode. cbn [dec_idle counted fst].
    destruct (dec_idle D s) eqn:ID.
    + cbn. destruct (dec_finish D s) as [s1 x] eqn:F. destruct x as [i| | |].
      { exfalso. exact (proj1 TB ID _ _ F). }
      all: intros [= <- <-]; cbn; unfold at_most; cbn; lia.
    + destruct (slice_from off buf) as [b|] eqn:SL.
      2:{ intros [= <- <-]. cbn. unfold at_most; lia. }
      cbn [dec_decode counted fst snd]. destruct (dec_decode D fuel s b e) as [s1 x] eqn:DE.
      destruct x as [k1| | |].
      2-4: intros [= <- <-]; cbn; unfold at_most; cbn; lia.
      cbn [dec_idle counted fst]. destruct (dec_idle D s1) eqn:ID1.
      2:{ intros [= <- <-]. cbn. unfold at_most; cbn; lia. }
      cbn [dec_finish counted fst snd]. destruct (dec_finish D s1) as [s2 y] eqn:F. destruct y as [i| | |].
      2-4: intros [= <- <-]; cbn; unfold at_most; cbn; lia.
      assert (K : k1 <> 0).
      { intros ->. refine (proj2 TB fuel b e s1 s2 i ID _ DE ID1 F). intros ->.
        unfold slice_from in SL. destruct (off <=? length buf) eqn:X; [|discriminate]. injection SL as SL.
        apply (f_equal (@length _)) in SL. rewrite skipn_length in SL. cbn in SL. lia. }
      intros H. pose proof (pv_decode P R DE) as R1. pose proof (pv_finish P R1 F) as R2.
      pose proof (IHn _ _ _ _ _ _ R2 (pv_byte P R1 F) H) as A.
      unfold at_most in *; cbn in *; lia.
Qed.

(** Items of at least one byte: the bytes bound the calls as well, whatever number of items a peer announces. *)
Theorem C89_collectn_bytes : forall S I (D : Decoder S I) Reach fuel st buf e st' r,
  productive D Reach -> Reach (fst (cn_inner st)) ->
  dec_decode (collectn_decoder (counted D)) fuel st buf e = (st', r) ->
  at_most (length buf + 1) (length buf + 1) (snd (cn_inner st)) (snd (cn_inner st')).
Proof.
  intros S I D Reach fuel [[s c] n it] buf e st' r P R. cbn [fst cn_inner] in R. cbn.
  destruct n as [|n]; cbn [collectn_loop].
  { intros [= <- <-]. cbn. unfold at_most; lia. }
  destruct (Nat.ltb_spec 0 (length buf)) as [L|L].
  2:{ intros [= <- <-]. cbn. unfold at_most; lia. }
  pose proof (try_once D fuel (s, c) 0 buf e) as T. unfold try_decode in *. cbn [dec_idle counted fst] in *.
  destruct (dec_idle D s) eqn:ID.
  - cbn [dec_finish counted fst snd]. destruct (dec_finish D s) as [s1 x] eqn:F. destruct x as [i| | |].
    2-4: intros [= <- <-]; cbn; unfold at_most; cbn; lia.
    intros H. pose proof (@collectn_bytes _ _ D Reach _ _ _ P _ _ _ _ _ _ _ (pv_finish P R F) (pv_byte P R F) H) as A.
    unfold at_most in *; cbn in *; lia.
  - destruct (slice_from 0 buf) as [b|] eqn:SL.
    2:{ intros [= <- <-]. cbn. unfold at_most; lia. }
    cbn [dec_decode counted fst snd]. destruct (dec_decode D fuel s b e) as [s1 x] eqn:DE.
    destruct x as [k1| | |].
    2-4: intros [= <- <-]; cbn; unfold at_most; cbn; lia.
    cbn [dec_idle counted fst]. destruct (dec_idle D s1) eqn:ID1.
    2:{ intros [= <- <-]. cbn. unfold at_most; cbn; lia. }
    cbn [dec_finish counted fst snd]. destruct (dec_finish D s1) as [s2 y] eqn:F. destruct y as [i| | |].
    2-4: intros [= <- <-]; cbn; unfold at_most; cbn; lia.
    intros H. pose proof (pv_decode P R DE) as R1. pose proof (pv_finish P R1 F) as R2.
    pose proof (@collectn_bytes _ _ D Reach _ _ _ P _ _ _ _ _ _ _ R2 (pv_byte P R1 F) H) as A.
    unfold at_most in *; cbn in *; lia.
Qed.
Print Assumptions C89_collectn_bytes.

(** Items of no bytes: a single byte in the buffer and an announced number of items make that many calls. *)
Theorem C89_collectn_empty_refuted : forall n fuel x,
  exists st', dec_decode (collectn_decoder (counted null_decoder)) fuel (collectn_new (tt, mkCalls 0 0) n) [x] (eos_new false) = (st', Ok 0) /\
    ends (snd (cn_inner st')) = n.
Proof.
  intros n fuel x. cbn.
  assert (L : forall n c it, exists st', collectn_loop (counted null_decoder) fuel n (tt, c) it 0 [x] (eos_new false) = (st', Ok 0) /\
    ends (snd (cn_inner st')) = ends c + n).
  { induction n0 as [|m IH]; intros c it.
    - eexists. split; [reflexivity|]. cbn. lia.
    - cbn [collectn_loop]. cbn - [collectn_loop]. destruct (IH (mkCalls (runs c) (Datatypes.S (ends c))) (it ++ [tt])) as (st' & A & B).
      exists st'. split; [exact A|]. rewrite B. cbn. lia. }
  destruct (L n (mkCalls 0 0) []) as (st' & A & B). exists st'. auto.
Qed.
Print Assumptions C89_collectn_empty_refuted.

(** ** [repeat] *)

Lemma pull_work : forall S I (E : Encoder S I) fuel items s,
  match repeat_pull (countede E) fuel s items with
  | PullGo s' rest => runs (snd s') = runs (snd s) /\ ends (snd s') + length rest = ends (snd s) + length items /\ length rest <= length items
  | PullDone s' => runs (snd s') = runs (snd s) /\ ends (snd s') = ends (snd s) + length items
  | PullFail s' rest x => (forall k, x <> Ok k) /\
      runs (snd s') = runs (snd s) /\ ends (snd s') + length rest = ends (snd s) + length items /\ length rest <= length items
  end.
Proof.
  intros S I E fuel. induction items as [|i rest IH]; intros s; cbn [repeat_pull].
  - destruct (enc_idle _ s); cbn; lia.
  - destruct (enc_idle _ s); [|cbn; lia]. cbn [enc_start countede].
    destruct (enc_start E fuel (fst s) i) as [s1 x]. destruct x; try (cbn; repeat split; try discriminate; lia).
    specialize (IH (s1, mkCalls (runs (snd s)) (Datatypes.S (ends (snd s))))). cbn [snd runs ends] in IH.
    destruct (repeat_pull _ _ _ _); cbn [length]; repeat split; try apply IH; lia.
Qed.

Definition pending {S I} (st : Repeat S I) : nat := match rp_items st with Some l => length l | None => 0 end.

Lemma repeat_work : forall S I (E : Encoder S I) fuel e,
  (forall f s b e s' b' r, enc_encode E f s b e = (s', b', r) -> length b' = length b) ->
  forall n st off buf st' b' r,
  repeat_loop (countede E) n fuel st off buf e = (st', b', r) ->
  at_most (length buf + 1 - off) (pending st) (snd (rp_inner st)) (snd (rp_inner st')) /\
  (forall k, r = Ok k -> off <= k /\ at_most (k - off + 1) (pending st) (snd (rp_inner st)) (snd (rp_inner st'))).
Proof.
  intros S I E fuel e LEN. induction n; intros st off buf st' b' r; cbn [repeat_loop].
  { intros [= <- <- <-]. split; [unfold at_most; lia|discriminate]. }
  pose proof (pull_work E fuel (match rp_items st with Some l => l | None => [] end) (rp_inner st)) as PW.
  replace (length match rp_items st with Some l => l | None => [] end) with (pending st) in PW
    by (unfold pending; destruct (rp_items st); reflexivity).
  destruct (repeat_pull _ _ _ _) as [s1 rest|s1|s1 rest x].
  2:{ intros [= <- <- <-]. cbn [rp_inner snd]. split; [unfold at_most; lia|]. intros k [= <-]. unfold at_most; lia. }
  2:{ destruct PW as [NO PW]. intros [= <- <- <-]. cbn [rp_inner snd]. split; [unfold at_most; lia|]. intros k ->. destruct (NO k eq_refl). }
  destruct (slice_from off buf) as [b|] eqn:SL.
  2:{ intros [= <- <- <-]. cbn [rp_inner snd]. split; [unfold at_most; lia|discriminate]. }
  assert (LB : length b = length buf - off /\ off <= length buf).
  { unfold slice_from in SL. destruct (Nat.leb_spec off (length buf)); [|discriminate]. injection SL as <-. rewrite skipn_length. lia. }
  cbn [enc_encode countede]. destruct (enc_encode E fuel (fst s1) b e) as [[s2 b2] x] eqn:EN. apply LEN in EN.
  destruct x as [k1| | |].
  2-4: intros [= <- <- <-]; cbn [rp_inner snd]; (split; [unfold at_most; cbn [runs ends snd]; lia|discriminate]).
  destruct (Nat.eqb_spec k1 0) as [Z|Z].
  { intros [= <- <- <-]. cbn [rp_inner snd]. split; [unfold at_most; cbn [runs ends snd]; lia|]. intros k [= <-]. unfold at_most; cbn [runs ends snd]; lia. }
  intros H. apply IHn in H. destruct H as [A B].
  assert (PE : pending (mkRepeat (s2, mkCalls (Datatypes.S (runs (snd s1))) (ends (snd s1))) match rp_items st with Some _ => Some rest | None => None end) <= length rest).
  { unfold pending. cbn. destruct (rp_items st); lia. }
  assert (LL : length (firstn off buf ++ b2) = length buf) by (rewrite app_length, firstn_length; lia).
  rewrite LL in *. cbn [rp_inner snd] in *. 
  split; [unfold at_most in *; cbn [runs ends] in *; lia|].
  intros k Hk. destruct (B k Hk) as [C C']. split; [lia|]. unfold at_most in *; cbn [runs ends] in *; lia.
Qed.

(** One call over any encoder: no more items are started than are left, and every [encode] but the last has written
    something.  Without a result, the buffer bounds the calls. *)
Theorem C89_repeat : forall S I (E : Encoder S I) fuel st buf e st' b' r,
  (forall f s b e s' b' r, enc_encode E f s b e = (s', b', r) -> length b' = length b) ->
  enc_encode (repeat_encoder (countede E)) fuel st buf e = (st', b', r) ->
  at_most (length buf + 1) (match rp_items st with Some l => length l | None => 0 end) (snd (rp_inner st)) (snd (rp_inner st')) /\
  (forall k, r = Ok k ->
     at_most (k + 1) (match rp_items st with Some l => length l | None => 0 end) (snd (rp_inner st)) (snd (rp_inner st'))).
Proof.
  intros S I E fuel st buf e st' b' r LEN H. cbn in H.
  destruct (@repeat_work _ _ E fuel e LEN _ _ _ _ _ _ _ H) as [A B]. unfold pending in *.
  split; [unfold at_most in *; lia|]. intros k Hk. destruct (B k Hk) as [_ C]. unfold at_most in *; lia.
Qed.
Print Assumptions C89_repeat.

(** ** Examples *)

(** [U16beDecoder.collect()] on five bytes: two items and a half take three calls. *)
Example C89_collect_example :
  let D := collect_decoder (counted (num_decoder read_be)) in
  let s0 := collect_new (num_dec_new 2, mkCalls 0 0) in
  exists st, dec_decode D 9 s0 [x00; x01; x00; x02; x00] (eos_new false) = (st, Ok 5) /\
    runs (snd (cl_inner st)) = 3 /\ ends (snd (cl_inner st)) = 2 /\
    good_calls D s0 1 5 st.
Proof.
  cbv zeta. eexists. split; [vm_compute; reflexivity|]. split; [reflexivity|]. split; [reflexivity|].
  eapply gc_call with (k := 0); [apply gc_none|]. instantiate (1 := eos_new false).
  instantiate (1 := [x00; x01; x00; x02; x00]). instantiate (1 := 9). vm_compute. reflexivity.
Qed.
(** The same with the hypotheses of the theorem. *)
Example C89_collect_example_bound : forall st fuel buf e r,
  dec_decode (collect_decoder (counted (copy_decoder vec_box))) fuel (collect_new (copy_dec_new [x00; x00], mkCalls 0 0)) buf e = (st, r) ->
  runs (snd (cl_inner st)) <= length buf + 1.
Proof.
  intros st fuel buf e r H.
  eapply C89_collect in H; [|exact (C25_productive 1)|reflexivity]. destruct H as [A _].
  cbn in A. unfold at_most in A. cbn in A. lia.
Qed.

(** [repeat] over one-byte numbers: five items, a buffer of three bytes. *)
Example C89_repeat_example :
  exists st b, enc_encode (repeat_encoder (countede (bytes_encoder vec_box))) 9
      (mkRepeat (bytes_enc_new, mkCalls 0 0) (Some [[x01]; [x02]; [x03]; [x04]; [x05]])) [x00; x00; x00] (eos_new false) = (st, b, Ok 3) /\
    b = [x01; x02; x03] /\ snd (rp_inner st) = mkCalls 4 4.
Proof. eexists. eexists. split; [vm_compute; reflexivity|]. split; reflexivity. Qed.
