(** * Termination of decoders: specification.

    [collect] is the only decoder with a loop that is not bounded by a counter.  In the model such
    a loop runs out of [fuel], and the result [OutOfFuel] says so: a call returns iff, given
    enough fuel, its result is not [OutOfFuel]. *)
From Verif Require Export Sound.
Set Implicit Arguments.

(** More rounds than bytes. *)
Definition enough (fuel : nat) (buf : list byte) : Prop := length buf + 1 < fuel.

(** A call to [decode] in state [s] returns, whatever it is given. *)
Definition returns {S I} (D : Decoder S I) (s : S) : Prop :=
  forall fuel buf e, enough fuel buf -> snd (dec_decode D fuel s buf e) <> OutOfFuel.

(** In state [s], no item can be completed at once without a byte: neither is the decoder
    idle with an item, nor does it become so by a call that has bytes but consumes none. *)
Definition takes_a_byte {S I} (D : Decoder S I) (s : S) : Prop :=
  (dec_idle D s = true -> forall s' i, dec_finish D s <> (s', Ok i)) /\
  (forall fuel buf e s1 s2 i, dec_idle D s = false -> buf <> [] ->
     dec_decode D fuel s buf e = (s1, Ok 0) -> dec_idle D s1 = true -> dec_finish D s1 <> (s2, Ok i)).

(** A set of states that no call leaves, whatever its result, in which calls return and after each
    item of which the next one needs a byte. *)
Record productive {S I} (D : Decoder S I) (Reach : S -> Prop) : Prop := {
  pv_decode : forall s fuel buf e s' r, Reach s -> dec_decode D fuel s buf e = (s', r) -> Reach s';
  pv_finish : forall s s' r, Reach s -> dec_finish D s = (s', r) -> Reach s';
  pv_returns : forall s, Reach s -> returns D s;
  pv_finish_returns : forall s, Reach s -> snd (dec_finish D s) <> OutOfFuel;
  pv_byte : forall s s' i, Reach s -> dec_finish D s = (s', Ok i) -> takes_a_byte D s'
}.
Arguments pv_decode {S I D Reach} _ {s fuel buf e s' r} _ _.
Arguments pv_finish {S I D Reach} _ {s s' r} _ _.
Arguments pv_returns {S I D Reach} _ {s} _ fuel buf e _.
Arguments pv_finish_returns {S I D Reach} _ {s} _.
Arguments pv_byte {S I D Reach} _ {s s' i} _ _.

(** ** For terms: every [collect] in it is over items that take at least one byte *)
Definition needs_bytes {A} (c : codec A) : Prop := forall w a, justifies c w a -> w <> [].
Fixpoint collects_bytes {A} (c : codec A) : Prop :=
  match c with
  | CTuple p => pcollects_bytes p
  | CMap _ _ c => collects_bytes c
  | CTryMap _ _ c => collects_bytes c
  | CMapErr _ _ c => collects_bytes c
  | COpt _ c => collects_bytes c
  | CLen _ c => collects_bytes c
  | CLen2 _ c => collects_bytes c
  | CMax _ c => collects_bytes c
  | CPeek c => collects_bytes c
  | CMaybe c => collects_bytes c
  | CPre c => collects_bytes c
  | CSeq c => needs_bytes c /\ collects_bytes c
  | CSeqN _ c => collects_bytes c
  | CPrefixed _ _ c => collects_bytes c
  | CCounted _ c => collects_bytes c
  | CFlagged _ c => collects_bytes c
  | _ => True
  end
with pcollects_bytes {A} (p : parts A) : Prop :=
  match p with
  | PTwo c c' => collects_bytes c /\ collects_bytes c'
  | PSnoc p c => pcollects_bytes p /\ collects_bytes c
  end.

(** ** Any calls at all, whatever their results *)
Inductive called {S I} (D : Decoder S I) (s : S) : S -> Prop :=
| called_start : called D s s
| called_decode : forall s1 fuel buf e s2 r,
    called D s s1 -> dec_decode D fuel s1 buf e = (s2, r) -> called D s s2
| called_finish : forall s1 s2 r,
    called D s s1 -> dec_finish D s1 = (s2, r) -> called D s s2.
