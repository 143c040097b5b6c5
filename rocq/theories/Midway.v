(** * Specification vocabulary for C79: a codec that is looked at, or changed, in mid-item. *)
From Verif Require Export Session Observe.
Set Implicit Arguments.

(** The item [w] has been offered to [D], from state [s], up to some byte before the last one, in
    whatever pieces and with whatever (true) hints: all calls succeed, the offered bytes have been
    consumed, and [Q] holds of the state reached and of the bytes of the item still to come.  If
    [m] is not [SD] nothing follows the item, and the stream does not claim to be endless. *)
Definition partway {S I} (D : Decoder S I) (m : mode) (s : S) (w : list byte)
    (Q : S -> list byte -> Prop) : Prop :=
  forall fuel sched extra,
    (m <> SD -> extra = [] /\ ends sched) ->
    (len (w ++ extra) <= u64_max)%N -> length (w ++ extra) < fuel ->
    offered sched < length w ->
    exists s',
      feed D fuel s (w ++ extra) sched = (s', skipn (offered sched) w ++ extra, Ok tt) /\
      dec_idle D s' = false /\
      Q s' (skipn (offered sched) w).

(** The same for an encoder that has [w] to output and has been given less room than that. *)
Definition epartway {S I} (E : Encoder S I) (s : S) (w : list byte)
    (Q : S -> list byte -> Prop) : Prop :=
  exists f0, forall fuel bufs out,
    f0 + room bufs < fuel -> room bufs < length w ->
    exists s',
      drain E fuel s out bufs = (s', out ++ firstn (room bufs) w, Ok tt) /\
      enc_idle E s' = false /\
      Q s' (skipn (room bufs) w).
