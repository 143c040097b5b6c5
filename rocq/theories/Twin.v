(** * Specification for C80 (and C63): two implementations that cannot be told apart, and what is
    built from them.

    [dmatch R D D']: in states related by [R] every call to [D] and to [D'] answers the same, and
    leaves them in related states.  [twin] says that two compositions have the same shape and differ
    only in matching components; it gives the relation between their states. *)
From Verif Require Export Observe Comb Tuple Utf8.
Set Implicit Arguments.

Definition dmatch {S S' I} (R : S -> S' -> Prop) (D : Decoder S I) (D' : Decoder S' I) : Prop :=
  forall s s', R s s' -> forall o,
    snd (dec_do D s o) = snd (dec_do D' s' o) /\ R (fst (dec_do D s o)) (fst (dec_do D' s' o)).
Definition ematch {S S' I} (R : S -> S' -> Prop) (E : Encoder S I) (E' : Encoder S' I) : Prop :=
  forall s s', R s s' -> forall o,
    snd (enc_do E s o) = snd (enc_do E' s' o) /\ R (fst (enc_do E s o)) (fst (enc_do E' s' o)).

(** No sequence of calls tells the two apart. *)
Definition dalike {S S' I} (D : Decoder S I) (D' : Decoder S' I) (s : S) (s' : S') : Prop :=
  forall ops, dec_trace D s ops = dec_trace D' s' ops.
Definition ealike {S S' I} (E : Encoder S I) (E' : Encoder S' I) (s : S) (s' : S') : Prop :=
  forall ops, enc_trace E s ops = enc_trace E' s' ops.

Definition both_rel {A A' B B'} (R : A -> A' -> Prop) (Q : B -> B' -> Prop) (x : A * B) (x' : A' * B')
    : Prop := R (fst x) (fst x') /\ Q (snd x) (snd x').
Definition opt_rel {A A'} (R : A -> A' -> Prop) (x : option A) (x' : option A') : Prop :=
  match x, x' with None, None => True | Some a, Some a' => R a a' | _, _ => False end.

Inductive twin : forall S S' I : Type, Decoder S I -> Decoder S' I -> (S -> S' -> Prop) -> Prop :=
| tw_own : forall S S' I (R : S -> S' -> Prop) (D : Decoder S I) (D' : Decoder S' I),
    dmatch R D D' -> twin D D' R
| tw_map : forall S S' I T (D : Decoder S I) (D' : Decoder S' I) R (f : I -> T),
    twin D D' R -> twin (map_decoder D f) (map_decoder D' f) R
| tw_try_map : forall S S' I T (D : Decoder S I) (D' : Decoder S' I) R (f : I -> T + ErrorKind),
    twin D D' R -> twin (try_map_decoder D f) (try_map_decoder D' f) R
| tw_map_err : forall S S' I (D : Decoder S I) (D' : Decoder S' I) R f,
    twin D D' R -> twin (map_err_decoder D f) (map_err_decoder D' f) R
| tw_utf8 : forall S S' (D : Decoder S (list byte)) (D' : Decoder S' (list byte)) R,
    twin D D' R -> twin (utf8_decoder D) (utf8_decoder D') R
| tw_and_then : forall S0 S0' S1 S1' I0 I1 (D0 : Decoder S0 I0) (D0' : Decoder S0' I0)
    (D1 : Decoder S1 I1) (D1' : Decoder S1' I1) R0 (R1 : S1 -> S1' -> Prop) f f',
    twin D0 D0' R0 -> twin D1 D1' R1 -> (forall i, R1 (f i) (f' i)) ->
    twin (and_then_decoder D0 D1 f) (and_then_decoder D0' D1' f')
      (fun st st' => R0 (at_inner0 st) (at_inner0 st') /\ opt_rel R1 (at_inner1 st) (at_inner1 st'))
| tw_omit : forall S S' I (D : Decoder S I) (D' : Decoder S' I) R,
    twin D D' R ->
    twin (omit_decoder D) (omit_decoder D')
      (fun st st' => R (om_inner st) (om_inner st') /\ om_omit st = om_omit st')
| tw_collect : forall S S' I (D : Decoder S I) (D' : Decoder S' I) R,
    twin D D' R ->
    twin (collect_decoder D) (collect_decoder D')
      (fun st st' => R (cl_inner st) (cl_inner st') /\ cl_items st = cl_items st' /\ cl_eos st = cl_eos st')
| tw_collectn : forall S S' I (D : Decoder S I) (D' : Decoder S' I) R,
    twin D D' R ->
    twin (collectn_decoder D) (collectn_decoder D')
      (fun st st' => R (cn_inner st) (cn_inner st') /\ cn_remaining st = cn_remaining st' /\
                     cn_items st = cn_items st')
| tw_length : forall S S' I (D : Decoder S I) (D' : Decoder S' I) R,
    twin D D' R ->
    twin (length_decoder D) (length_decoder D')
      (fun st st' => R (ln_inner st) (ln_inner st') /\ ln_expected st = ln_expected st' /\
                     ln_remaining st = ln_remaining st')
| tw_max : forall S S' I (D : Decoder S I) (D' : Decoder S' I) R,
    twin D D' R ->
    twin (max_decoder D) (max_decoder D')
      (fun st st' => R (mx_inner st) (mx_inner st') /\ mx_consumed st = mx_consumed st' /\
                     mx_max st = mx_max st')
| tw_slice : forall S S' I (D : Decoder S I) (D' : Decoder S' I) R,
    twin D D' R ->
    twin (slice_decoder D) (slice_decoder D')
      (fun st st' => R (sl_inner st) (sl_inner st') /\ sl_consumable st = sl_consumable st')
| tw_peek : forall S S' I (D : Decoder S I) (D' : Decoder S' I) R,
    twin D D' R ->
    twin (peek_decoder D) (peek_decoder D')
      (fun st st' => R (pk_inner st) (pk_inner st') /\ pk_item st = pk_item st')
| tw_maybe : forall S S' I (D : Decoder S I) (D' : Decoder S' I) R,
    twin D D' R ->
    twin (maybe_decoder D) (maybe_decoder D')
      (fun st st' => R (my_inner st) (my_inner st') /\ my_started st = my_started st')
| tw_tuple : forall S S' I (P : DecParts S I) (P' : DecParts S' I) R,
    twin_parts P P' R -> twin (tuple_of_dec_parts P) (tuple_of_dec_parts P') R
with twin_parts : forall S S' I : Type, DecParts S I -> DecParts S' I -> (S -> S' -> Prop) -> Prop :=
| twp_one : forall S S' I (D : Decoder S I) (D' : Decoder S' I) R,
    twin D D' R -> twin_parts (dp_one D) (dp_one D') R
| twp_snoc : forall S S' T T' I J (P : DecParts S I) (P' : DecParts S' I) (D : Decoder T J)
    (D' : Decoder T' J) R Q,
    twin_parts P P' R -> twin D D' Q -> twin_parts (dp_snoc P D) (dp_snoc P' D') (both_rel R Q).

Inductive etwin : forall S S' I : Type, Encoder S I -> Encoder S' I -> (S -> S' -> Prop) -> Prop :=
| etw_own : forall S S' I (R : S -> S' -> Prop) (E : Encoder S I) (E' : Encoder S' I),
    ematch R E E' -> etwin E E' R
| etw_map_from : forall S S' I T (E : Encoder S I) (E' : Encoder S' I) R (f : T -> I),
    etwin E E' R -> etwin (map_from_encoder E f) (map_from_encoder E' f) R
| etw_try_map_from : forall S S' I T (E : Encoder S I) (E' : Encoder S' I) R (f : T -> I + ErrorKind),
    etwin E E' R -> etwin (try_map_from_encoder E f) (try_map_from_encoder E' f) R
| etw_map_err : forall S S' I (E : Encoder S I) (E' : Encoder S' I) R f,
    etwin E E' R -> etwin (map_err_encoder E f) (map_err_encoder E' f) R
| etw_optional : forall S S' I (E : Encoder S I) (E' : Encoder S' I) R,
    etwin E E' R -> etwin (optional_encoder E) (optional_encoder E') R
| etw_repeat : forall S S' I (E : Encoder S I) (E' : Encoder S' I) R,
    etwin E E' R ->
    etwin (repeat_encoder E) (repeat_encoder E')
      (fun st st' => R (rp_inner st) (rp_inner st') /\ rp_items st = rp_items st')
| etw_length : forall S S' I (E : Encoder S I) (E' : Encoder S' I) R,
    etwin E E' R ->
    etwin (length_encoder E) (length_encoder E')
      (fun st st' => R (ln_inner st) (ln_inner st') /\ ln_expected st = ln_expected st' /\
                     ln_remaining st = ln_remaining st')
| etw_max : forall S S' I (E : Encoder S I) (E' : Encoder S' I) R,
    etwin E E' R ->
    etwin (max_encoder E) (max_encoder E')
      (fun st st' => R (mx_inner st) (mx_inner st') /\ mx_consumed st = mx_consumed st' /\
                     mx_max st = mx_max st')
| etw_pre : forall S S' I (E : Encoder S I) (E' : Encoder S' I) R,
    etwin E E' R ->
    etwin (pre_encoder E) (pre_encoder E')
      (fun st st' => R (pre_inner st) (pre_inner st') /\ pre_encoded st = pre_encoded st')
| etw_slice : forall S S' I (E : Encoder S I) (E' : Encoder S' I) R,
    etwin E E' R ->
    etwin (slice_encoder E) (slice_encoder E')
      (fun st st' => R (sl_inner st) (sl_inner st') /\ sl_consumable st = sl_consumable st')
| etw_last : forall S S' I (E : Encoder S I) (E' : Encoder S' I) R,
    etwin E E' R ->
    etwin (last_encoder E) (last_encoder E')
      (fun st st' => R (la_inner st) (la_inner st') /\ la_item st = la_item st')
| etw_tuple : forall S S' I (P : EncParts S I) (P' : EncParts S' I) R,
    etwin_parts P P' R -> etwin (tuple_of_enc_parts P) (tuple_of_enc_parts P') R
with etwin_parts : forall S S' I : Type, EncParts S I -> EncParts S' I -> (S -> S' -> Prop) -> Prop :=
| etwp_one : forall S S' I (E : Encoder S I) (E' : Encoder S' I) R,
    etwin E E' R -> etwin_parts (ep_one E) (ep_one E') R
| etwp_snoc : forall S S' T T' I J (P : EncParts S I) (P' : EncParts S' I) (E : Encoder T J)
    (E' : Encoder T' J) R Q,
    etwin_parts P P' R -> etwin E E' Q -> etwin_parts (ep_snoc P E) (ep_snoc P' E') (both_rel R Q).

(** The state after a sequence of calls. *)
Fixpoint dec_end {S I} (D : Decoder S I) (s : S) (ops : list dec_op) : S :=
  match ops with [] => s | o :: ops' => dec_end D (fst (dec_do D s o)) ops' end.
Fixpoint enc_end {S I} (E : Encoder S I) (s : S) (ops : list (enc_op I)) : S :=
  match ops with [] => s | o :: ops' => enc_end E (fst (enc_do E s o)) ops' end.
