(** * [repeat()] over any iterator: lazy, endless or not fused *)
From Verif Require Export EncComb2.
Set Implicit Arguments.

(** An iterator is a state [T] with [next]; nothing is assumed about it.  [Comb.v] models [Repeat] over finite
    lists; here the same code takes any iterator (src/combinator.rs:406-409, [I: Iterator<Item = E::Item>]). *)
Section Model.
  Context {S I T : Type} (E : Encoder S I) (next : T -> option I * T).

  (** src/combinator.rs:382-385 *)
  Record RepeatIter := mkRepeatIter { ri_inner : S; ri_items : option T }.
  (** src/combinator.rs:402-404 *)
  Definition repeat_iter_new (s : S) : RepeatIter := mkRepeatIter s None.

  (** The inner [while self.inner.is_idle()] loop: src/combinator.rs:416-423.  [n] bounds its rounds. *)
  Inductive ipulled :=
  | IPullGo (s : S) (it : option T)
  | IPullDone (s : S)
  | IPullFail (s : S) (it : option T) (r : res nat).
  Fixpoint iter_pull (n fuel : nat) (s : S) (it : option T) : ipulled :=
    if enc_idle E s then
      match n with
      | 0 => IPullFail s it OutOfFuel
      | Datatypes.S n' =>
          match it with
          | None => IPullDone s
          | Some t =>
              match next t with
              | (None, _) => IPullDone s
              | (Some i, t') =>
                  match enc_start E fuel s i with
                  | (s', Ok _) => iter_pull n' fuel s' (Some t')
                  | (s', r) => IPullFail s' (Some t') (rcast r)
                  end
              end
          end
      end
    else IPullGo s it.

  (** The outer [loop]: src/combinator.rs:415-430.  [n] bounds its rounds. *)
  Fixpoint iter_loop (n fuel : nat) (st : RepeatIter) (off : nat) (buf : list byte) (e : Eos)
      : RepeatIter * list byte * res nat :=
    match n with
    | 0 => (st, buf, OutOfFuel)
    | Datatypes.S n' =>
        match iter_pull fuel fuel (ri_inner st) (ri_items st) with
        | IPullDone s => (mkRepeatIter s None, buf, Ok off)
        | IPullFail s it r => (mkRepeatIter s it, buf, r)
        | IPullGo s it =>
            match slice_from off buf with
            | None => (mkRepeatIter s it, buf, Panic)
            | Some b =>
                match enc_encode E fuel s b e with
                | (s', b', Ok size) =>
                    let buf' := firstn off buf ++ b' in
                    let st' := mkRepeatIter s' it in
                    if size =? 0 then (st', buf', Ok (off + size))
                    else iter_loop n' fuel st' (off + size) buf' e
                | (s', b', r) => (mkRepeatIter s' it, firstn off buf ++ b', r)
                end
            end
        end
    end.

  (** src/combinator.rs:447-449 *)
  Definition repeat_iter_idle (st : RepeatIter) : bool :=
    match ri_items st with None => true | Some _ => false end.

  (** src/combinator.rs:406-450 *)
  Definition repeat_iter_encoder : Encoder RepeatIter T :=
    {| enc_encode := fun fuel st buf e => iter_loop fuel fuel st 0 buf e;
       enc_start := fun _ st items =>
         if repeat_iter_idle st then (mkRepeatIter (ri_inner st) (Some items), Ok tt)
         else (st, Err EncoderFull);
       enc_req := fun st => Ok (if repeat_iter_idle st then Finite 0 else Unknown);
       enc_idle := repeat_iter_idle |}.

  (** ** Specification: [it] hands out the items [xs], one per call of [next], and is then [it']. *)
  Inductive yields : T -> list I -> T -> Prop :=
  | yields_none : forall it, yields it [] it
  | yields_item : forall it i it1 xs it2,
      next it = (Some i, it1) -> yields it1 xs it2 -> yields it (i :: xs) it2.
  (** The iterator has no more items. *)
  Definition exhausted (it : T) : Prop := fst (next it) = None.
  (** The iterator never ends. *)
  Definition endless (it : T) : Prop := forall n, exists xs it', length xs = n /\ yields it xs it'.
End Model.
Arguments RepeatIter S T : clear implicits.
Arguments mkRepeatIter {S T}.
