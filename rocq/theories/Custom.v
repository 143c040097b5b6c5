(** * Specification for C77: compositions with components that the user wrote.

    The components are arbitrary implementations of the traits; what is known of them is the
    contract of [Spec.v] ([decodes] and [encodes]) for some wire format.  [speaks] and [tells] say which
    format a composition reads and writes. *)
From Verif Require Export Spec Comb Tuple Utf8 Utf8Spec DecPrim DecComb EncComb EncComb2.
Set Implicit Arguments.

(** The concatenation of encoded items. *)
Definition many {I} (fmt : format I) : format (list I) :=
  fun w is => (len w <= isize_max)%N /\ exists ws, w = concat ws /\ Forall2 fmt ws is.
(** One item after the other. *)
Definition both {I0 I1} (fmt0 : format I0) (fmt1 : format I1) : format (I0 * I1) :=
  fun w i => (len w <= isize_max)%N /\
             exists w0 w1, w = w0 ++ w1 /\ fmt0 w0 (fst i) /\ fmt1 w1 (snd i).
(** A header, then what the header announces. *)
Definition headed {I0 I1} (fmt0 : format I0) (fmt1 : I0 -> format I1) : format I1 :=
  fun w i => (len w <= isize_max)%N /\
             exists w0 w1 i0, w = w0 ++ w1 /\ fmt0 w0 i0 /\ fmt1 i0 w1 i.
(** The decoder has something to do before the item is complete. *)
Definition starts_busy {S I} (D : Decoder S I) (Pre : S -> Prop) : Prop :=
  forall s, Pre s -> dec_idle D s = false.

(** [speaks D m fmt Pre Post]: [D] is a composition, started in a [Pre] state it reads [fmt]
    (delimited as [m] says) and ends in a [Post] state. *)
Inductive speaks : forall S I : Type, Decoder S I -> mode -> format I -> (S -> Prop) -> (S -> Prop) -> Prop :=
(** the user's own decoder *)
| sp_own : forall S I (D : Decoder S I) m fmt Pre Post, decodes D m fmt Pre Post -> speaks D m fmt Pre Post
| sp_sub : forall S I (D : Decoder S I) m (fmt fmt' : format I) (Pre Post Pre' Post' : S -> Prop),
    speaks D m fmt Pre Post -> (forall w i, fmt' w i -> fmt w i) ->
    (forall s, Pre' s -> Pre s) -> (forall s, Post s -> Post' s) -> speaks D m fmt' Pre' Post'
| sp_alone : forall S I (D : Decoder S I) fmt Pre Post,
    speaks D SD fmt Pre Post -> speaks D Exact fmt Pre Post
(** src/combinator.rs, src/bytes.rs *)
| sp_map : forall S I T (D : Decoder S I) (f : I -> T) m fmt Pre Post,
    speaks D m fmt Pre Post ->
    speaks (map_decoder D f) m (fun w t => exists i, fmt w i /\ f i = t) Pre Post
| sp_try_map : forall S I T (D : Decoder S I) (f : I -> T + ErrorKind) m fmt Pre Post,
    speaks D m fmt Pre Post ->
    speaks (try_map_decoder D f) m (fun w t => exists i, fmt w i /\ f i = inl t) Pre Post
| sp_utf8 : forall S (D : Decoder S (list byte)) m fmt Pre Post,
    speaks D m fmt Pre Post ->
    speaks (utf8_decoder D) m (fun w str => exists b, fmt w b /\ utf8 str b) Pre Post
| sp_map_err : forall S I (D : Decoder S I) f m fmt Pre Post,
    speaks D m fmt Pre Post -> speaks (map_err_decoder D f) m fmt Pre Post
| sp_omit : forall S I (D : Decoder S I) m fmt Pre Post,
    speaks D m fmt Pre Post ->
    speaks (omit_decoder D) m (fun w o => exists i, o = Some i /\ fmt w i)
      (fun st => om_omit st = false /\ Pre (om_inner st))
      (fun st => om_omit st = false /\ Post (om_inner st))
| sp_omitted : forall S I (D : Decoder S I) m,
    speaks (omit_decoder D) m (fun w o => o = None /\ w = [])
      (fun st => om_omit st = true) (fun st => om_omit st = true)
| sp_length : forall S I (D : Decoder S I) m fmt Pre Post n,
    speaks D m fmt Pre Post ->
    speaks (length_decoder D) SD (fun w i => fmt w i /\ len w = n)
      (fun st => exists s, Pre s /\ st = length_new s n) (fun st => exists s, Post s /\ st = length_new s n)
| sp_max : forall S I (D : Decoder S I) m fmt Pre Post n,
    speaks D m fmt Pre Post -> m <> SD -> (n <= u64_max)%N ->
    speaks (max_decoder D) m (fun w i => fmt w i /\ (len w <= n)%N)
      (fun st => exists s, Pre s /\ st = max_new s n) (fun st => exists s, Post s /\ st = max_new s n)
| sp_peek : forall S I (D : Decoder S I) m fmt Pre Post,
    speaks D m fmt Pre Post -> starts_busy D Pre ->
    speaks (peek_decoder D) m fmt
      (fun st => exists s, Pre s /\ st = peek_new s) (fun st => exists s, Post s /\ st = peek_new s)
| sp_maybe : forall S I (D : Decoder S I) m fmt Pre Post,
    speaks D m fmt Pre Post ->
    speaks (maybe_decoder D) m (fun w i => fmt w i /\ (m = ToEos -> w <> []))
      (fun st => exists s, Pre s /\ st = maybe_new s) (fun st => exists s, Post s /\ st = maybe_new s)
| sp_collect : forall S I (D : Decoder S I) fmt P,
    speaks D SD fmt P P -> (forall w i, fmt w i -> w <> []) -> (exists w i, fmt w i) ->
    speaks (collect_decoder D) ToEos (many fmt)
      (fun st => exists s, P s /\ st = collect_new s) (fun st => exists s, P s /\ st = collect_new s)
| sp_collectn : forall S I (D : Decoder S I) fmt P n,
    speaks D SD fmt P P -> (forall w i, fmt w i -> w <> []) ->
    speaks (collectn_decoder D) SD (fun w is => many fmt w is /\ length is = n)
      (fun st => exists s, P s /\ st = collectn_new s n) (fun st => exists s, P s /\ st = collectn_new s 0)
| sp_and_then : forall S0 S1 I0 I1 (D0 : Decoder S0 I0) (D1 : Decoder S1 I1) (f : I0 -> S1) m
    fmt0 (fmt1 : I0 -> format I1) Pre0 Post0 Post1,
    speaks D0 SD fmt0 Pre0 Post0 -> (forall w i, fmt0 w i -> w <> []) ->
    (forall i0, speaks D1 m (fmt1 i0) (fun s => s = f i0) Post1) ->
    (m = ToEos -> forall i0, dec_idle D1 (f i0) = false) ->
    speaks (and_then_decoder D0 D1 f) m (headed fmt0 fmt1)
      (fun st => exists s, Pre0 s /\ st = and_then_new s) (fun st => exists s, Post0 s /\ st = and_then_new s)
(** src/tuple.rs *)
| sp_pair : forall S0 S1 I0 I1 (D0 : Decoder S0 I0) (D1 : Decoder S1 I1) m fmt0 fmt1 Pre0 Pre1 Post0 Post1,
    speaks D0 SD fmt0 Pre0 Post0 -> speaks D1 m fmt1 Pre1 Post1 -> (m = ToEos -> starts_busy D1 Pre1) ->
    speaks (tuple2_decoder D0 D1) m (both fmt0 fmt1)
      (fun s => Pre0 (fst s) /\ Pre1 (snd s)) (fun s => Post0 (fst s) /\ Post1 (snd s))
| sp_snoc : forall S0 S1 I0 I1 (P : DecParts S0 I0) (D1 : Decoder S1 I1) m fmt0 fmt1 Pre0 Pre1 Post0 Post1,
    parts_ok P ->
    speaks (tuple_of_dec_parts P) SD fmt0 Pre0 Post0 -> speaks D1 m fmt1 Pre1 Post1 ->
    (m = ToEos -> starts_busy D1 Pre1) ->
    speaks (tuple_of_dec_parts (dp_snoc P D1)) m (both fmt0 fmt1)
      (fun s => Pre0 (fst s) /\ Pre1 (snd s)) (fun s => Post0 (fst s) /\ Post1 (snd s)).

(** [tells E fmt Pre Post]: the same for encoders.  [rests E P]: in a [P] state [E] has nothing to do. *)
Inductive tells : forall S I : Type, Encoder S I -> format I -> (S -> Prop) -> (S -> Prop) -> Prop :=
| te_own : forall S I (E : Encoder S I) fmt Pre Post, encodes E fmt Pre Post -> tells E fmt Pre Post
| te_sub : forall S I (E : Encoder S I) (fmt fmt' : format I) (Pre Post Pre' Post' : S -> Prop),
    tells E fmt Pre Post -> (forall w i, fmt' w i -> fmt w i) ->
    (forall s, Pre' s -> Pre s) -> (forall s, Post s -> Post' s) -> tells E fmt' Pre' Post'
| te_map_from : forall S I T (E : Encoder S I) (f : T -> I) fmt Pre Post,
    tells E fmt Pre Post -> tells (map_from_encoder E f) (fun w t => fmt w (f t)) Pre Post
| te_try_map_from : forall S I T (E : Encoder S I) (f : T -> I + ErrorKind) fmt Pre Post,
    tells E fmt Pre Post ->
    tells (try_map_from_encoder E f) (fun w t => exists i, f t = inl i /\ fmt w i) Pre Post
| te_map_err : forall S I (E : Encoder S I) f fmt Pre Post,
    tells E fmt Pre Post -> tells (map_err_encoder E f) fmt Pre Post
| te_optional : forall S I (E : Encoder S I) fmt P,
    tells E fmt P P -> rests E P ->
    tells (optional_encoder E) (fun w o => match o with Some i => fmt w i | None => w = [] end) P P
| te_length : forall S I (E : Encoder S I) fmt P n,
    tells E fmt P P -> rests E P -> (0 < n)%N ->
    tells (length_encoder E) (fun w i => fmt w i /\ len w = n)
      (fun st => exists s, P s /\ st = length_new s n) (fun _ => True)
| te_max : forall S I (E : Encoder S I) fmt Pre Post n,
    tells E fmt Pre Post -> (n <= u64_max)%N ->
    tells (max_encoder E) (fun w i => fmt w i /\ (len w <= n)%N)
      (fun st => exists s, Pre s /\ st = max_new s n) (fun st => exists s, Post s /\ st = max_new s n)
| te_pre : forall S I (E : Encoder S I) fmt P,
    tells E fmt P P -> rests E P -> tells (pre_encoder E) fmt (pre_idle P) (pre_idle P)
| te_repeat : forall S I (E : Encoder S I) fmt P,
    tells E fmt P P -> rests E P -> (forall w i, fmt w i -> w <> []) ->
    tells (repeat_encoder E) (many fmt)
      (fun st => exists s, P s /\ st = repeat_new s) (fun st => exists s, P s /\ st = repeat_new s)
| te_pair : forall S0 S1 I0 I1 (E0 : Encoder S0 I0) (E1 : Encoder S1 I1) fmt0 fmt1 Pre0 Pre1 Post0 Post1,
    tells E0 fmt0 Pre0 Post0 -> tells E1 fmt1 Pre1 Post1 ->
    tells (tuple2_encoder E0 E1) (both fmt0 fmt1)
      (fun s => Pre0 (fst s) /\ Pre1 (snd s)) (fun s => Post0 (fst s) /\ Post1 (snd s))
| te_snoc : forall S0 S1 I0 I1 (P : EncParts S0 I0) (E1 : Encoder S1 I1) fmt0 fmt1 Pre0 Pre1 Post0 Post1,
    eparts_ok P ->
    tells (tuple_of_enc_parts P) fmt0 Pre0 Post0 -> tells E1 fmt1 Pre1 Post1 ->
    tells (tuple_of_enc_parts (ep_snoc P E1)) (both fmt0 fmt1)
      (fun s => Pre0 (fst s) /\ Pre1 (snd s)) (fun s => Post0 (fst s) /\ Post1 (snd s)).
