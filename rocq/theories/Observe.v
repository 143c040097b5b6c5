(** * What a user observes of one decoder or encoder object: statements used by the theorems about
      single combinators.

    Only the trait records and the user loops of [Spec] and [Session] occur here. *)
From Verif Require Export Session.
Set Implicit Arguments.

(** [D], in state [s], decodes the bytes [w] to the item [i]: however the stream is cut and
    whatever (true) hints are given,
    - every call succeeds and exactly the offered bytes of [w] are consumed, what follows is left;
    - a decoder that was not idle is idle exactly when the item has been completed;
    - when it is idle, [finish_decoding] returns [i] and leaves a [Post] state.
    If [m] is not [SD] nothing follows the item, and the stream does not claim to be endless. *)
Definition delivers {S I} (D : Decoder S I) (m : mode) (s : S) (w : list byte) (i : I)
    (Post : S -> Prop) : Prop :=
  forall fuel sched extra,
    (m <> SD -> extra = [] /\ ends sched) ->
    (len (w ++ extra) <= u64_max)%N -> length (w ++ extra) < fuel ->
    exists s',
      feed D fuel s (w ++ extra) sched
        = (s', skipn (min (length w) (offered sched)) (w ++ extra), Ok tt) /\
      (dec_idle D s = false -> (dec_idle D s' = true <-> completes m w sched)) /\
      (dec_idle D s' = true -> exists s'', dec_finish D s' = (s'', Ok i) /\ Post s'').

(** [E], in state [s], outputs exactly [w]: into buffers of any sizes, filling each of them as long
    as bytes are left, and is idle (in a [Post] state) exactly when the last byte is written. *)
Definition outputs {S I} (E : Encoder S I) (s : S) (w : list byte) (Post : S -> Prop) : Prop :=
  exists f0, forall fuel bufs out, f0 + room bufs < fuel ->
    exists s',
      drain E fuel s out bufs = (s', out ++ firstn (room bufs) w, Ok tt) /\
      (enc_idle E s = false ->
       (enc_idle E s' = true <-> bufs <> [] /\ length w <= room bufs)) /\
      (enc_idle E s' = true -> Post s').

(** [E], in state [s], accepts the item [i] and outputs exactly [w] for it. *)
Definition sends {S I} (E : Encoder S I) (s : S) (i : I) (w : list byte) (Post : S -> Prop)
    : Prop :=
  exists f0, forall fuel bufs, f0 + room bufs < fuel ->
    exists s1 s',
      enc_start E fuel s i = (s1, Ok tt) /\
      drain E fuel s1 [] bufs = (s', firstn (room bufs) w, Ok tt) /\
      (enc_idle E s1 = false ->
       (enc_idle E s' = true <-> bufs <> [] /\ length w <= room bufs)) /\
      (enc_idle E s' = true -> length w <= room bufs /\ Post s').

(** Any sequence of [decode] calls, with arbitrary buffers and hints, successful or not; [t] is the
    number of bytes reported as consumed. *)
Definition size_of (r : res nat) : nat := match r with Ok n => n | _ => 0 end.
Inductive decode_calls {S I} (D : Decoder S I) (s : S) : nat -> S -> Prop :=
| dcs_nil : decode_calls D s 0 s
| dcs_call : forall t s1 fuel buf e s2 r,
    decode_calls D s t s1 -> dec_decode D fuel s1 buf e = (s2, r) ->
    decode_calls D s (t + size_of r) s2.
(** The same for [encode]. *)
Inductive encode_calls {S I} (E : Encoder S I) (s : S) : nat -> S -> Prop :=
| ecs_nil : encode_calls E s 0 s
| ecs_call : forall t s1 fuel buf e s2 buf' r,
    encode_calls E s t s1 -> enc_encode E fuel s1 buf e = (s2, buf', r) ->
    encode_calls E s (t + size_of r) s2.

(** No [decode] call reports more than it was given. *)
Definition honest {S I} (D : Decoder S I) : Prop :=
  forall fuel s buf e s' n, dec_decode D fuel s buf e = (s', Ok n) -> n <= length buf.

(** ** Histories of arbitrary calls and everything they return *)
Inductive dec_op := OpDecode (fuel : nat) (buf : list byte) (e : Eos) | OpFinish | OpReq | OpIdle.
Inductive dec_obs (I : Type) :=
| ObDecode (r : res nat) | ObFinish (r : res I) | ObReq (r : res ByteCount) | ObIdle (b : bool).
Arguments ObDecode {I} r.
Arguments ObFinish {I} r.
Arguments ObReq {I} r.
Arguments ObIdle {I} b.
Definition dec_do {S I} (D : Decoder S I) (s : S) (o : dec_op) : S * dec_obs I :=
  match o with
  | OpDecode fuel buf e => let '(s', r) := dec_decode D fuel s buf e in (s', ObDecode r)
  | OpFinish => let '(s', r) := dec_finish D s in (s', ObFinish r)
  | OpReq => (s, ObReq (dec_req D s))
  | OpIdle => (s, ObIdle (dec_idle D s))
  end.
Fixpoint dec_trace {S I} (D : Decoder S I) (s : S) (ops : list dec_op) : list (dec_obs I) :=
  match ops with
  | [] => []
  | o :: ops' => let '(s', b) := dec_do D s o in b :: dec_trace D s' ops'
  end.

Inductive enc_op (I : Type) :=
| OpEncode (fuel : nat) (buf : list byte) (e : Eos) | OpStart (fuel : nat) (i : I)
| OpEReq | OpEIdle.
Arguments OpEncode {I} fuel buf e.
Arguments OpStart {I} fuel i.
Arguments OpEReq {I}.
Arguments OpEIdle {I}.
(** [ObEncode] also shows the content of the buffer after the call. *)
Inductive enc_obs :=
| ObEncode (buf : list byte) (r : res nat) | ObStart (r : res unit) | ObEReq (r : res ByteCount)
| ObEIdle (b : bool).
Definition enc_do {S I} (E : Encoder S I) (s : S) (o : enc_op I) : S * enc_obs :=
  match o with
  | OpEncode fuel buf e =>
      let '(s', buf', r) := enc_encode E fuel s buf e in (s', ObEncode buf' r)
  | OpStart fuel i => let '(s', r) := enc_start E fuel s i in (s', ObStart r)
  | OpEReq => (s, ObEReq (enc_req E s))
  | OpEIdle => (s, ObEIdle (enc_idle E s))
  end.
Fixpoint enc_trace {S I} (E : Encoder S I) (s : S) (ops : list (enc_op I)) : list enc_obs :=
  match ops with
  | [] => []
  | o :: ops' => let '(s', b) := enc_do E s o in b :: enc_trace E s' ops'
  end.
