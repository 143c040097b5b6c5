(** * How often a combinator calls the codec inside it: specification.

    [counted D] is [D] with two counters beside its state: the calls of [decode] and the calls of
    [finish_decoding] it has received.  It answers every call as [D] does; a combinator over [counted D]
    shows by the counters what one call costs.  [countede E] likewise for encoders. *)
From Verif Require Export Comb Tuple Prim Utf8 Live.
Set Implicit Arguments.

Record Calls := mkCalls { runs : nat; ends : nat }.

(** An implementation of [Decode] (src/decode.rs:9-84) that counts. *)
Definition counted {S I} (D : Decoder S I) : Decoder (S * Calls) I :=
  {| dec_decode := fun fuel s buf e =>
       let '(s', r) := dec_decode D fuel (fst s) buf e in
       ((s', mkCalls (Datatypes.S (runs (snd s))) (ends (snd s))), r);
     dec_finish := fun s =>
       let '(s', r) := dec_finish D (fst s) in
       ((s', mkCalls (runs (snd s)) (Datatypes.S (ends (snd s)))), r);
     dec_req := fun s => dec_req D (fst s);
     dec_idle := fun s => dec_idle D (fst s) |}.

(** An implementation of [Encode] (src/encode.rs:9-72) that counts: [runs] the calls of [encode], [ends] those of
    [start_encoding]. *)
Definition countede {S I} (E : Encoder S I) : Encoder (S * Calls) I :=
  {| enc_encode := fun fuel s buf e =>
       let '(s', b, r) := enc_encode E fuel (fst s) buf e in
       ((s', mkCalls (Datatypes.S (runs (snd s))) (ends (snd s))), b, r);
     enc_start := fun fuel s i =>
       let '(s', r) := enc_start E fuel (fst s) i in
       ((s', mkCalls (runs (snd s)) (Datatypes.S (ends (snd s)))), r);
     enc_req := fun s => enc_req E (fst s);
     enc_idle := fun s => enc_idle E (fst s) |}.

(** At most [n] calls of [decode]/[encode] and [m] of [finish_decoding]/[start_encoding] from [c] to [c']. *)
Definition at_most (n m : nat) (c c' : Calls) : Prop :=
  runs c <= runs c' <= runs c + n /\ ends c <= ends c' <= ends c + m.

(** A wrapper [W] around a decoder whose state is [inner st], in whatever state: a call of it makes at most one call
    of the decoder inside, and at most [m] calls of [finish_decoding] when it decodes. *)
Definition calls_once {W S J} (D : Decoder W J) (inner : W -> S * Calls) (m : nat) : Prop :=
  (forall fuel st buf e st' r, dec_decode D fuel st buf e = (st', r) ->
     at_most 1 m (snd (inner st)) (snd (inner st'))) /\
  (forall st st' r, dec_finish D st = (st', r) -> at_most 0 1 (snd (inner st)) (snd (inner st'))).
Definition ecalls_once {W S J} (E : Encoder W J) (inner : W -> S * Calls) (m : nat) : Prop :=
  (forall fuel st buf e st' b r, enc_encode E fuel st buf e = (st', b, r) ->
     at_most 1 m (snd (inner st)) (snd (inner st'))) /\
  (forall fuel st i st' r, enc_start E fuel st i = (st', r) ->
     at_most 0 1 (snd (inner st)) (snd (inner st'))).

(** Likewise for the components of a tuple (src/tuple.rs:31-60, 96-123), of any number. *)
Definition tried_state {S} (t : tried S) : S := match t with TGo s _ => s | TRet s _ => s end.
Definition parts_once {W S J} (P : DecParts W J) (inner : W -> S * Calls) : Prop :=
  (forall fuel st off buf e, at_most 1 0 (snd (inner st)) (snd (inner (tried_state (dp_decode P fuel st off buf e))))) /\
  (forall st, at_most 0 1 (snd (inner st)) (snd (inner (fst (dp_finish P st))))).
Definition eparts_once {W S J} (P : EncParts W J) (inner : W -> S * Calls) : Prop :=
  (forall fuel st off buf e, at_most 1 0 (snd (inner st)) (snd (inner (tried_state (fst (ep_encode P fuel st off buf e)))))) /\
  (forall fuel st i, at_most 0 1 (snd (inner st)) (snd (inner (fst (ep_start P fuel st i))))).

(** [m] successful [decode] calls in a row that consumed [k] bytes together. *)
Inductive good_calls {S I} (D : Decoder S I) (s : S) : nat -> nat -> S -> Prop :=
| gc_none : good_calls D s 0 0 s
| gc_call : forall m k s1 fuel buf e s2 n,
    good_calls D s m k s1 -> dec_decode D fuel s1 buf e = (s2, Ok n) -> good_calls D s (Datatypes.S m) (k + n) s2.
