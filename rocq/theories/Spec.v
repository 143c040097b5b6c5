(** * Specification vocabulary: what a user of the traits can observe.

    Only the trait records [Decoder]/[Encoder] are used here, no concrete codec. *)
From Verif Require Export Iface.
Set Implicit Arguments.

(** The kind the user sees when a reader or writer fails, as documented for the conversion of
    [std::io::Error]: an unexpected end of file is [UnexpectedEos], everything else [Other]. *)
Definition reported_kind (e : IoErr) : ErrorKind :=
  match e with
  | IoUnexpectedEof => UnexpectedEos
  | IoWouldBlock | IoInterrupted | IoOther => Other
  end.


(** ** Driving a decoder *)

(** What the caller says about the end of the stream in a [decode] call: nothing, the exact
    number of bytes that follow the offered buffer, or that the stream never ends. *)
Inductive hint := HUnknown | HExact | HNever.
Definition hint_eos (h : hint) (rest : list byte) : Eos :=
  match h with
  | HUnknown => Unknown
  | HExact => Finite (len rest)
  | HNever => Infinite
  end.

(** A schedule: for each call, how many of the available bytes are offered, and the hint. *)
Definition schedule := list (nat * hint).
Definition offered (sched : schedule) : nat := fold_right (fun c n => fst c + n) 0 sched.

(** The user loop: while the decoder is not idle, offer the next bytes of [input] and drop
    what was consumed.  Returns the decoder, the bytes not consumed, and the status. *)
Fixpoint feed {S I} (D : Decoder S I) (fuel : nat) (s : S) (input : list byte)
    (sched : schedule) : S * list byte * res unit :=
  match sched with
  | [] => (s, input, Ok tt)
  | (k, h) :: sched' =>
      if dec_idle D s then (s, input, Ok tt)
      else match dec_decode D fuel s (firstn k input) (hint_eos h (skipn k input)) with
           | (s', Ok n) => feed D fuel s' (skipn n input) sched'
           | (s', r) => (s', input, rcast r)
           end
  end.

(** ** Driving an encoder *)

(** The user loop: while the encoder is not idle, offer the next output buffer (its old content is
    arbitrary) and append what was written to the output. *)
Fixpoint drain {S I} (E : Encoder S I) (fuel : nat) (s : S) (out : list byte)
    (bufs : list (list byte)) : S * list byte * res unit :=
  match bufs with
  | [] => (s, out, Ok tt)
  | b :: bufs' =>
      if enc_idle E s then (s, out, Ok tt)
      else match enc_encode E fuel s b (eos_new false) with
           | (s', b', Ok n) => drain E fuel s' (out ++ firstn n b') bufs'
           | (s', _, r) => (s', out, rcast r)
           end
  end.
Definition room (bufs : list (list byte)) : nat := fold_right (fun b n => length b + n) 0 bufs.

(** ** The decoding contract *)

(** How an item is delimited:
    - [SD]: by its own bytes; anything may follow;
    - [Exact]: by its own bytes, but nothing may follow it on the stream;
    - [ToEos]: by the end of the stream. *)
Inductive mode := SD | Exact | ToEos.

(** [e] is true of a stream in which [rest] follows the offered [buf].  "Never ends" is
    allowed for self-delimiting decoders only. *)
Definition truthful (m : mode) (buf rest : list byte) (e : Eos) : Prop :=
  e = Unknown \/
  (e = Finite (len rest) /\ (len buf + len rest <= u64_max)%N) \/
  (e = Infinite /\ m = SD).

(** [requiring_bytes] of a decoder that still needs the bytes [w]: for a delimited item it is never
    more than what is left and 0 only if nothing is left; for an item that runs to the end of
    the stream it is positive (and bounded, so that sums do not overflow). *)
Definition req_ok (m : mode) (q : res ByteCount) (w : list byte) : Prop :=
  match m with
  | ToEos =>
      match q with
      | Ok (Finite n) => (0 < n <= len w + isize_max)%N
      | Ok _ => True
      | _ => False
      end
  | _ =>
      match q with
      | Ok (Finite n) => (n <= len w)%N /\ (n = 0%N -> w = [])
      | Ok Unknown => w <> []
      | _ => False
      end
  end.

(** Idleness after the last byte of the item has been consumed. *)
Definition done_idle (m : mode) (e : Eos) : bool :=
  match m with ToEos => is_reached e | _ => true end.

(** [R s w i]: "in state [s] the bytes [w] are still missing from item [i]".  [step_ok] says
    that [R] is closed under every permitted call, with the permitted results:
    - an idle decoder misses nothing, and [finish_decoding] gives the item;
    - a buffer that does not complete the item is consumed entirely;
    - a buffer that completes the item is consumed up to the item's end. *)
Record step_ok {S I} (D : Decoder S I) (m : mode) (Post : S -> Prop)
    (R : S -> list byte -> I -> Prop) : Prop := {
  so_len : forall s w i, R s w i -> (len w <= isize_max)%N;
  so_idle : forall s w i, R s w i -> dec_idle D s = true ->
    w = [] /\ dec_req D s = Ok (Finite 0) /\
    exists s', dec_finish D s = (s', Ok i) /\ Post s';
  so_req : forall s w i, R s w i -> dec_idle D s = false -> req_ok m (dec_req D s) w;
  so_more : forall s i fuel buf w' extra e,
    R s (buf ++ w') i -> dec_idle D s = false -> w' <> [] ->
    (m <> SD -> extra = []) -> truthful m buf (w' ++ extra) e -> length buf < fuel ->
    exists s', dec_decode D fuel s buf e = (s', Ok (length buf)) /\
               dec_idle D s' = false /\ R s' w' i;
  so_last : forall s i fuel w extra rest e,
    R s w i -> dec_idle D s = false ->
    (m <> SD -> extra = [] /\ rest = []) -> truthful m (w ++ extra) rest e ->
    length (w ++ extra) < fuel ->
    exists s', dec_decode D fuel s (w ++ extra) e = (s', Ok (length w)) /\
               dec_idle D s' = done_idle m e /\ R s' [] i
}.

Arguments so_len {S I D m Post R} _ {s w i} _.
Arguments so_idle {S I D m Post R} _ {s w i} _ _.
Arguments so_req {S I D m Post R} _ {s w i} _ _.
Arguments so_more {S I D m Post R} _ {s i fuel buf w' extra e} _ _ _ _ _ _.
Arguments so_last {S I D m Post R} _ {s i fuel w extra rest e} _ _ _ _ _.

(** From state [s], the bytes [w] make item [i], and then the decoder is in a [Post] state. *)
Definition parses {S I} (D : Decoder S I) (m : mode) (Post : S -> Prop)
    (s : S) (w : list byte) (i : I) : Prop :=
  exists R, step_ok D m Post R /\ R s w i.

(** A wire format: which byte strings denote which items. *)
Definition format (I : Type) := list byte -> I -> Prop.

(** From every [Pre] state the decoder decodes the format, ending in a [Post] state. *)
Definition decodes {S I} (D : Decoder S I) (m : mode) (fmt : format I) (Pre Post : S -> Prop)
    : Prop :=
  forall s w i, Pre s -> fmt w i -> parses D m Post s w i.

(** ** The encoding contract *)

(** [R s w]: "in state [s] the bytes [w] are still to be output".  [f0] is the fuel needed for loops
    that do not depend on the buffer. *)
Record estep_ok {S I} (E : Encoder S I) (f0 : nat) (Post : S -> Prop)
    (R : S -> list byte -> Prop) : Prop := {
  eo_len : forall s w, R s w -> (len w <= isize_max)%N;
  eo_idle : forall s w, R s w -> enc_idle E s = true -> w = [] /\ Post s;
  eo_req : forall s w, R s w ->
    enc_req E s = Ok (Finite (len w)) \/ (enc_req E s = Ok Unknown /\ enc_idle E s = false);
  eo_more : forall s w w' fuel buf e,
    R s (w ++ w') -> enc_idle E s = false -> length w = length buf -> w' <> [] ->
    is_reached e = false -> f0 + length buf < fuel ->
    exists s', enc_encode E fuel s buf e = (s', w, Ok (length buf)) /\
               enc_idle E s' = false /\ R s' w';
  eo_last : forall s w fuel buf e,
    R s w -> enc_idle E s = false -> length w <= length buf -> f0 + length buf < fuel ->
    exists s', enc_encode E fuel s buf e
               = (s', w ++ skipn (length w) buf, Ok (length w)) /\
               enc_idle E s' = true /\ R s' []
}.

Arguments eo_len {S I E f0 Post R} _ {s w} _.
Arguments eo_idle {S I E f0 Post R} _ {s w} _ _.
Arguments eo_req {S I E f0 Post R} _ {s w} _.
Arguments eo_more {S I E f0 Post R} _ {s w w' fuel buf e} _ _ _ _ _ _.
Arguments eo_last {S I E f0 Post R} _ {s w fuel buf e} _ _ _ _.

(** From state [s] exactly the bytes [w] come out, and then the encoder is in a [Post] state. *)
Definition emits {S I} (E : Encoder S I) (f0 : nat) (Post : S -> Prop) (s : S) (w : list byte)
    : Prop :=
  exists R, estep_ok E f0 Post R /\ R s w.

(** [start_encoding i] in state [s] succeeds and makes the encoder output [w]. *)
Definition accepts {S I} (E : Encoder S I) (f0 : nat) (Post : S -> Prop) (s : S) (i : I)
    (w : list byte) : Prop :=
  forall fuel, f0 <= fuel ->
  exists s', enc_start E fuel s i = (s', Ok tt) /\ emits E f0 Post s' w.

(** From every [Pre] state every item of the format is encoded, ending in a [Post] state. *)
Definition encodes {S I} (E : Encoder S I) (fmt : format I) (Pre Post : S -> Prop) : Prop :=
  forall w i, fmt w i -> exists f0, forall s, Pre s -> accepts E f0 Post s i w.

(** An encoder without an item: idle, nothing left to output, and encoding writes nothing. *)
Definition rests {S I} (E : Encoder S I) (P : S -> Prop) : Prop :=
  forall s, P s ->
    enc_idle E s = true /\ enc_req E s = Ok (Finite 0) /\
    forall fuel buf e, 0 < fuel ->
      exists s', enc_encode E fuel s buf e = (s', buf, Ok 0) /\ P s'.
