(** * Buffered I/O: what the buffers hold, what a stream did, and histories of use.

    Specification for the properties of src/io.rs and src/io_async.rs. *)
From Verif Require Export Io Spec Safe.
Set Implicit Arguments.

(** ** What a buffer holds *)

(** The bytes between two indices of the container. *)
Definition stretch (inner : list byte) (head tail : nat) : list byte :=
  firstn (tail - head) (skipn head inner).
(** The buffered bytes, oldest first. *)
Definition rb_content (b : ReadBuf) : list byte := stretch (rb_inner b) (rb_head b) (rb_tail b).
Definition wb_content (b : WriteBuf) : list byte := stretch (wb_inner b) (wb_head b) (wb_tail b).

(** The indices are in order and inside the container; an emptied buffer starts again at 0. *)
Definition indices_ok (inner : list byte) (head tail : nat) : Prop :=
  tail <= length inner /\ (head < tail \/ head = 0 /\ tail = 0).
Definition rb_ok (b : ReadBuf) : Prop := indices_ok (rb_inner b) (rb_head b) (rb_tail b).
Definition wb_ok (b : WriteBuf) : Prop := indices_ok (wb_inner b) (wb_head b) (wb_tail b).

(** ** What a stream did *)

(** [reading r room data r']: successive [read] calls on [r], each into the space that is left of
    [room], all gave at least one byte, and together [data]. *)
Inductive reading : Reader -> nat -> list byte -> Reader -> Prop :=
| reading_none : forall r room, reading r room [] r
| reading_more : forall r room x data r1 more r',
    rd_read r room = (r1, inl (x :: data)) ->
    reading r1 (room - length (x :: data)) more r' ->
    reading r room ((x :: data) ++ more) r'.

(** [writing w data rest w']: successive [write] calls on [w], each with what was left of [data],
    all accepted at least one byte, and all but [rest]. *)
Inductive writing : Writer -> list byte -> list byte -> Writer -> Prop :=
| writing_none : forall w data, writing w data data w
| writing_more : forall w data n w1 rest w',
    wr_write w data = (w1, inl (S n)) ->
    writing w1 (skipn (S n) data) rest w' ->
    writing w data rest w'.

(** What one more [read] or [write] came to: nothing transferred, would block, or failed. *)
Inductive ending := EndEos | EndBlock | EndError (e : IoErr).
Definition end_of_read (o : list byte + IoErr) : option ending :=
  match o with
  | inl [] => Some EndEos
  | inl (_ :: _) => None
  | inr IoWouldBlock => Some EndBlock
  | inr e => Some (EndError e)
  end.
Definition end_of_write (o : nat + IoErr) : option ending :=
  match o with
  | inl 0 => Some EndEos
  | inl (S _) => None
  | inr IoWouldBlock => Some EndBlock
  | inr e => Some (EndError e)
  end.
(** The stream state and the result that the documentation gives for it. *)
Definition ending_state (x : ending) : StreamState :=
  match x with EndEos => StEos | EndBlock => StWouldBlock | EndError _ => StError end.
Definition ending_result (x : ending) : res unit :=
  match x with EndError e => Err (reported_kind e) | _ => Ok tt end.

(** ** A decoder or encoder that keeps a log

    [logging D] behaves like [D] and appends to its log the bytes that every successful call
    says it consumed; [elogging E] likewise for the bytes that it says it produced. *)
Definition logging {S I} (D : Decoder S I) : Decoder (S * list byte) I :=
  mkDecoder
    (fun fuel st buf e =>
       match dec_decode D fuel (fst st) buf e with
       | (s', Ok n) => ((s', snd st ++ firstn n buf), Ok n)
       | (s', r) => ((s', snd st), r)
       end)
    (fun st => let '(s', r) := dec_finish D (fst st) in ((s', snd st), r))
    (fun st => dec_req D (fst st))
    (fun st => dec_idle D (fst st)).
Definition elogging {S I} (E : Encoder S I) : Encoder (S * list byte) I :=
  mkEncoder
    (fun fuel st buf e =>
       match enc_encode E fuel (fst st) buf e with
       | (s', buf', Ok n) => ((s', snd st ++ firstn n buf'), buf', Ok n)
       | (s', buf', r) => ((s', snd st), buf', r)
       end)
    (fun fuel st i => let '(s', r) := enc_start E fuel (fst st) i in ((s', snd st), r))
    (fun st => enc_req E (fst st))
    (fun st => enc_idle E (fst st)).

(** ** Histories of a read buffer

    [read_history D b0 r0 s0 t log b r s results]: starting from the buffer [b0], the stream [r0]
    and the decoder state [s0], calls were made in any order: [fill], [read] into a buffer of any
    size, [decode_from_read_buf], assignments to the stream state, and uses of the decoder that
    do not involve the buffer ([touch]).  [log] are the bytes taken out, by [read] and by the
    decoder; [t] is the total number of bytes offered to the decoder; [results] are the results of
    the calls, latest first.  A call may end in an error and the history goes on. *)
Inductive read_history {S I} (D : Decoder S I) (touch : S -> S -> Prop)
    (b0 : ReadBuf) (r0 : Reader) (s0 : S)
    : N -> list byte -> ReadBuf -> Reader -> S -> list (res unit) -> Prop :=
| rh_start : read_history D touch b0 r0 s0 0%N [] b0 r0 s0 []
| rh_fill : forall t log b r s rs b' r' x,
    read_history D touch b0 r0 s0 t log b r s rs ->
    rb_fill b r = (b', r', x) ->
    read_history D touch b0 r0 s0 t log b' r' s (x :: rs)
| rh_read : forall t log b r s rs k b' d,
    read_history D touch b0 r0 s0 t log b r s rs ->
    rb_read b k = (b', Ok d) ->
    read_history D touch b0 r0 s0 t (log ++ d) b' r s (Ok tt :: rs)
| rh_read_fails : forall t log b r s rs k b' x,
    read_history D touch b0 r0 s0 t log b r s rs ->
    rb_read b k = (b', x) -> (forall d, x <> Ok d) ->
    read_history D touch b0 r0 s0 t log b' r s (rcast x :: rs)
| rh_decode : forall t log b r s rs fuel log' b' s' x,
    read_history D touch b0 r0 s0 t log b r s rs ->
    (t + len (rb_content b) <= phys)%N ->
    decode_from_read_buf (logging D) fuel (s, log) b = ((s', log'), b', x) ->
    x <> OutOfFuel ->
    read_history D touch b0 r0 s0 (t + len (rb_content b))%N log' b' r s' (x :: rs)
| rh_state : forall t log b r s rs st,
    read_history D touch b0 r0 s0 t log b r s rs ->
    read_history D touch b0 r0 s0 t log (rb_set_state b st) r s rs
| rh_touch : forall t log b r s rs s',
    read_history D touch b0 r0 s0 t log b r s rs -> touch s s' ->
    read_history D touch b0 r0 s0 t log b r s' rs.

(** ** Histories of a write buffer

    Likewise: [write], [encode_to_write_buf] (also the [async] variant), [flush], assignments to
    the stream state, and uses of the encoder that do not involve the buffer.  [log] are the
    bytes put in: those of [write] that it said it accepted, and those that the encoder said it
    produced. *)
Inductive write_history {S I} (E : Encoder S I) (touch : S -> S -> Prop)
    (b0 : WriteBuf) (w0 : Writer) (s0 : S)
    : N -> list byte -> WriteBuf -> Writer -> S -> list (res unit) -> Prop :=
| wh_start : write_history E touch b0 w0 s0 0%N [] b0 w0 s0 []
| wh_flush : forall t log b w s rs b' w' x woken,
    write_history E touch b0 w0 s0 t log b w s rs ->
    wb_flush b w = (b', w', x, woken) ->
    write_history E touch b0 w0 s0 t log b' w' s (x :: rs)
| wh_write : forall t log b w s rs data b' n,
    write_history E touch b0 w0 s0 t log b w s rs ->
    wb_write b data = (b', Ok n) ->
    write_history E touch b0 w0 s0 t (log ++ firstn n data) b' w s (Ok tt :: rs)
| wh_write_fails : forall t log b w s rs data b' x,
    write_history E touch b0 w0 s0 t log b w s rs ->
    wb_write b data = (b', x) -> (forall n, x <> Ok n) ->
    write_history E touch b0 w0 s0 t log b' w s (rcast x :: rs)
| wh_encode : forall t log b w s rs fuel log' b' s' x,
    write_history E touch b0 w0 s0 t log b w s rs ->
    (t + N.of_nat (wb_capacity b - wb_tail b) <= phys)%N ->
    encode_to_write_buf (elogging E) fuel (s, log) b = ((s', log'), b', x) ->
    x <> OutOfFuel ->
    write_history E touch b0 w0 s0 (t + N.of_nat (wb_capacity b - wb_tail b))%N log' b' w s' (x :: rs)
| wh_encode_async : forall t log b w s rs fuel task log' b' s' x,
    write_history E touch b0 w0 s0 t log b w s rs ->
    (t + N.of_nat (wb_capacity b - wb_tail b) <= phys)%N ->
    encode_to_write_buf_async (elogging E) fuel (s, log) b task = ((s', log'), b', x) ->
    x <> OutOfFuel ->
    write_history E touch b0 w0 s0 (t + N.of_nat (wb_capacity b - wb_tail b))%N log' b' w s' (x :: rs)
| wh_state : forall t log b w s rs st,
    write_history E touch b0 w0 s0 t log b w s rs ->
    write_history E touch b0 w0 s0 t log (wb_set_state b st) w s rs
| wh_touch : forall t log b w s rs s',
    write_history E touch b0 w0 s0 t log b w s rs -> touch s s' ->
    write_history E touch b0 w0 s0 t log b w s' rs.

(** ** Decoders and encoders that respect the buffers they are given

    [tame D P]: in the states [P t], where [t] bytes have been offered so far, no call panics
    or says it consumed more than it was offered. *)
Definition tame {S I} (D : Decoder S I) (P : N -> S -> Prop) : Prop :=
  forall t s fuel buf eos s' r,
    P t s -> (t + len buf <= phys)%N -> dec_decode D fuel s buf (eos_new eos) = (s', r) ->
    r <> OutOfFuel ->
    P (t + len buf)%N s' /\ r <> Panic /\ (forall n, r = Ok n -> n <= length buf).
(** [etame E P]: no call panics, changes the size of the buffer or says that it produced more
    than there was room for. *)
Definition etame {S I} (E : Encoder S I) (P : N -> S -> Prop) : Prop :=
  forall t s fuel buf eos s' buf' r,
    P t s -> (t + len buf <= phys)%N -> enc_encode E fuel s buf (eos_new eos) = (s', buf', r) ->
    r <> OutOfFuel ->
    P (t + len buf)%N s' /\ r <> Panic /\ length buf' = length buf /\
    (forall n, r = Ok n -> n <= length buf).

(** ** Asynchronous streams as blocking ones

    "Pending" is read as [WouldBlock]. *)
Definition sync_reader (r : AReader) : Reader :=
  mkReader (ar_data r)
    (map (fun p => match p with None => RdErr IoWouldBlock | Some x => x end) (ar_plan r)).
Definition sync_writer (w : AWriter) : Writer :=
  mkWriter (aw_data w)
    (map (fun p => match p with None => WrErr IoWouldBlock | Some x => x end) (aw_plan w)).
(** The stream never answers "ready: would block", as the async traits demand. *)
Definition ready_means_ready (r : AReader) : Prop :=
  ~ In (Some (RdErr IoWouldBlock)) (ar_plan r).
Definition wready_means_ready (w : AWriter) : Prop :=
  ~ In (Some (WrErr IoWouldBlock)) (aw_plan w).
Definition sync_result (p : Poll (res unit)) : res unit :=
  match p with Pending => Ok tt | Ready x => x end.
