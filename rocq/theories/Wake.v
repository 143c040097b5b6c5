(** * Specification for C81: which tasks wait for room in a write buffer, and which are woken

    A log of the two events that matter: a task left its waker with the buffer (a successful
    [encode_to_write_buf_async], src/io.rs:76-89), a task was woken (by [flush],
    src/io.rs:349-354).  [waiting inner log b]: [b] is reached from a new buffer over the container
    [inner] by any calls in any order, with any encoders in any states and any streams, and [log]
    is what happened meanwhile, oldest first.  Of the encoders only this is asked: that they do not
    claim to have written past the end of the buffer they were given ([fits]; they cannot change
    the size of the container). *)
From Verif Require Export Io IoSpec.
Set Implicit Arguments.

Inductive event := Parked (task : nat) | Woke (task : nat).

Definition fits (b b' : WriteBuf) : Prop :=
  wb_tail b' <= wb_capacity b' /\ wb_capacity b' = wb_capacity b.

Inductive waiting (inner : list byte) : list event -> WriteBuf -> Prop :=
| wt_start : waiting inner [] (wb_new inner)
| wt_park : forall log b S I (E : Encoder S I) fuel s s' b' task,
    waiting inner log b -> encode_to_write_buf_async E fuel s b task = (s', b', Ok tt) -> fits b b' ->
    waiting inner (log ++ [Parked task]) b'
| wt_park_fails : forall log b S I (E : Encoder S I) fuel s s' b' task x,
    waiting inner log b -> encode_to_write_buf_async E fuel s b task = (s', b', x) -> x <> Ok tt ->
    fits b b' -> waiting inner log b'
| wt_encode : forall log b S I (E : Encoder S I) fuel s s' b' x,
    waiting inner log b -> encode_to_write_buf E fuel s b = (s', b', x) -> fits b b' ->
    waiting inner log b'
| wt_write : forall log b data b' x,
    waiting inner log b -> wb_write b data = (b', x) -> waiting inner log b'
| wt_flush : forall log b w b' w' x woken,
    waiting inner log b -> wb_flush b w = (b', w', x, woken) ->
    waiting inner (log ++ match woken with Some t => [Woke t] | None => [] end) b'
| wt_poll_flush : forall log b w b' w' x,
    waiting inner log b -> wb_poll_flush b w = (b', w', x) -> waiting inner log b'
| wt_state : forall log b st,
    waiting inner log b -> waiting inner log (wb_set_state b st).

(** The task that left its waker last. *)
Fixpoint last_parked (log : list event) : option nat :=
  match log with
  | [] => None
  | e :: log' =>
      match last_parked log' with
      | Some t => Some t
      | None => match e with Parked t => Some t | Woke _ => None end
      end
  end.
