(** * Buffered I/O: src/io.rs:8-89, 108-461 and src/io_async.rs. *)
From Verif Require Export Iface.
Set Implicit Arguments.

(** [StreamState]: src/io.rs:108-117. *)
Inductive StreamState := StNormal | StEos | StWouldBlock | StError.
(** src/io.rs:118-138. *)
Definition st_is_normal (s : StreamState) : bool :=
  match s with StNormal => true | _ => false end.
Definition st_is_error (s : StreamState) : bool := match s with StError => true | _ => false end.
Definition st_is_eos (s : StreamState) : bool := match s with StEos => true | _ => false end.
Definition st_would_block (s : StreamState) : bool :=
  match s with StWouldBlock => true | _ => false end.

(** ** ReadBuf: src/io.rs:142-148.  The container [B] is a fixed-size list of bytes. *)
Record ReadBuf := mkReadBuf
  { rb_inner : list byte; rb_head : nat; rb_tail : nat; rb_state : StreamState }.
(** src/io.rs:150-158. *)
Definition rb_new (inner : list byte) : ReadBuf := mkReadBuf inner 0 0 StNormal.
(** src/io.rs:161-193.  [len] and [room] are checked subtractions ([Panic] on underflow). *)
Definition rb_len (b : ReadBuf) : res nat :=
  match usize_sub (rb_tail b) (rb_head b) with Some n => Ok n | None => Panic end.
Definition rb_room (b : ReadBuf) : res nat :=
  match usize_sub (length (rb_inner b)) (rb_tail b) with Some n => Ok n | None => Panic end.
Definition rb_capacity (b : ReadBuf) : nat := length (rb_inner b).
Definition rb_is_empty (b : ReadBuf) : bool := rb_tail b =? 0.
Definition rb_is_full (b : ReadBuf) : bool := rb_tail b =? length (rb_inner b).
(** [stream_state_mut]: src/io.rs:191-193. *)
Definition rb_set_state (b : ReadBuf) (s : StreamState) : ReadBuf :=
  mkReadBuf (rb_inner b) (rb_head b) (rb_tail b) s.
(** [self.head += size; if self.head == self.tail { reset }]: src/io.rs:17-21, 246-250. *)
Definition rb_consume (b : ReadBuf) (n : nat) : ReadBuf :=
  if rb_head b + n =? rb_tail b then mkReadBuf (rb_inner b) 0 0 (rb_state b)
  else mkReadBuf (rb_inner b) (rb_head b + n) (rb_tail b) (rb_state b).
(** [&inner[head..tail]] (src/io.rs:16, 245, 325): panics unless [head <= tail <= len]. *)
Definition window (inner : list byte) (head tail : nat) : option (list byte) :=
  if (head <=? tail) && (tail <=? length inner)
  then Some (firstn (tail - head) (skipn head inner)) else None.

(** [fill]: src/io.rs:202-225.  [fuel] bounds the rounds of the loop; [rb_fill] gives enough:
    every round that comes back has read at least one byte. *)
Fixpoint rb_fill_loop (fuel : nat) (b : ReadBuf) (r : Reader) : ReadBuf * Reader * res unit :=
  if rb_is_full b then (b, r, Ok tt)
  else match fuel with
  | 0 => (b, r, OutOfFuel)
  | S fuel' =>
      match usize_sub (length (rb_inner b)) (rb_tail b) with
      | None => (b, r, Panic)
      | Some room =>
          match rd_read r room with
          | (r', inr IoWouldBlock) => (rb_set_state b StWouldBlock, r', Ok tt)
          | (r', inr e) => (rb_set_state b StError, r', Err (err_of_io e))
          | (r', inl []) => (rb_set_state b StEos, r', Ok tt)
          | (r', inl (x :: l)) =>
              let data := x :: l in
              rb_fill_loop fuel'
                (mkReadBuf (overwrite (rb_inner b) (rb_tail b) data) (rb_head b)
                           (rb_tail b + length data) StNormal) r'
          end
      end
  end.
Definition rb_fill (b : ReadBuf) (r : Reader) : ReadBuf * Reader * res unit :=
  rb_fill_loop (S (length (rb_inner b))) b r.

(** [Read for ReadBuf]: src/io.rs:242-253, into a buffer of [k] bytes; the bytes read. *)
Definition rb_read (b : ReadBuf) (k : nat) : ReadBuf * res (list byte) :=
  match rb_len b with
  | Ok n =>
      let size := Nat.min k n in
      match slice_from (rb_head b) (rb_inner b) with
      | None => (b, Panic)
      | Some s =>
          if size <=? length s then (rb_consume b size, Ok (firstn size s)) else (b, Panic)
      end
  | x => (b, rcast x)
  end.

(** [IoDecodeExt::decode_from_read_buf]: src/io.rs:11-23. *)
Definition decode_from_read_buf {S I} (D : Decoder S I) (fuel : nat) (s : S) (b : ReadBuf)
    : S * ReadBuf * res unit :=
  match window (rb_inner b) (rb_head b) (rb_tail b) with
  | None => (s, b, Panic)
  | Some w =>
      match dec_decode D fuel s w (eos_new (st_is_eos (rb_state b))) with
      | (s', Ok size) => (s', rb_consume b size, Ok tt)
      | (s', r) => (s', b, rcast r)
      end
  end.

(** ** WriteBuf: src/io.rs:257-265.  The stored [Waker] is modelled by a number naming
    the task (the [tokio-async] feature). *)
Record WriteBuf := mkWriteBuf
  { wb_inner : list byte; wb_head : nat; wb_tail : nat; wb_state : StreamState;
    wb_waker : option nat }.
(** src/io.rs:267-276. *)
Definition wb_new (inner : list byte) : WriteBuf := mkWriteBuf inner 0 0 StNormal None.
(** src/io.rs:279-315. *)
Definition wb_len (b : WriteBuf) : res nat :=
  match usize_sub (wb_tail b) (wb_head b) with Some n => Ok n | None => Panic end.
Definition wb_room (b : WriteBuf) : res nat :=
  match usize_sub (length (wb_inner b)) (wb_tail b) with Some n => Ok n | None => Panic end.
Definition wb_capacity (b : WriteBuf) : nat := length (wb_inner b).
Definition wb_is_empty (b : WriteBuf) : bool := wb_tail b =? 0.
Definition wb_is_full (b : WriteBuf) : bool := wb_tail b =? length (wb_inner b).
Definition wb_set_state (b : WriteBuf) (s : StreamState) : WriteBuf :=
  mkWriteBuf (wb_inner b) (wb_head b) (wb_tail b) s (wb_waker b).
(** src/io.rs:340-346, io_async.rs:75-82. *)
Definition wb_advance (b : WriteBuf) (n : nat) : WriteBuf :=
  if wb_head b + n =? wb_tail b then mkWriteBuf (wb_inner b) 0 0 StNormal (wb_waker b)
  else mkWriteBuf (wb_inner b) (wb_head b + n) (wb_tail b) StNormal (wb_waker b).

(** The loop of [flush]: src/io.rs:324-348. *)
Fixpoint wb_flush_loop (fuel : nat) (b : WriteBuf) (w : Writer) : WriteBuf * Writer * res unit :=
  if wb_is_empty b then (b, w, Ok tt)
  else match fuel with
  | 0 => (b, w, OutOfFuel)
  | S fuel' =>
      match window (wb_inner b) (wb_head b) (wb_tail b) with
      | None => (b, w, Panic)
      | Some d =>
          match wr_write w d with
          | (w', inr IoWouldBlock) => (wb_set_state b StWouldBlock, w', Ok tt)
          | (w', inr e) => (wb_set_state b StError, w', Err (err_of_io e))
          | (w', inl 0) => (wb_set_state b StEos, w', Ok tt)
          | (w', inl n) => wb_flush_loop fuel' (wb_advance b n) w'
          end
      end
  end.
(** [flush]: src/io.rs:323-356, and the waker it wakes, if any (349-354). *)
Definition wb_flush (b : WriteBuf) (w : Writer)
    : WriteBuf * Writer * res unit * option nat :=
  let '(b', w', r) := wb_flush_loop (S (wb_tail b)) b w in
  let woken := match r with
               | Ok _ => if negb (wb_is_full b') then wb_waker b' else None
               | _ => None
               end in
  (b', w', r, woken).

(** [Write for WriteBuf]: src/io.rs:373-384. *)
Definition wb_write (b : WriteBuf) (data : list byte) : WriteBuf * res nat :=
  match wb_room b with
  | Ok room =>
      let size := Nat.min (length data) room in
      (mkWriteBuf (overwrite (wb_inner b) (wb_tail b) (firstn size data)) (wb_head b)
                  (wb_tail b + size) (wb_state b) (wb_waker b), Ok size)
  | x => (b, rcast x)
  end.

(** [IoEncodeExt::encode_to_write_buf]: src/io.rs:60-68. *)
Definition encode_to_write_buf {S I} (E : Encoder S I) (fuel : nat) (s : S) (b : WriteBuf)
    : S * WriteBuf * res unit :=
  match slice_from (wb_tail b) (wb_inner b) with
  | None => (s, b, Panic)
  | Some d =>
      match enc_encode E fuel s d (eos_new (st_is_eos (wb_state b))) with
      | (s', d', Ok size) =>
          (s', mkWriteBuf (firstn (wb_tail b) (wb_inner b) ++ d') (wb_head b)
                          (wb_tail b + size) (wb_state b) (wb_waker b), Ok tt)
      | (s', d', r) =>
          (s', mkWriteBuf (firstn (wb_tail b) (wb_inner b) ++ d') (wb_head b) (wb_tail b)
                          (wb_state b) (wb_waker b), rcast r)
      end
  end.
(** [encode_to_write_buf_async]: src/io.rs:76-89. *)
Definition encode_to_write_buf_async {S I} (E : Encoder S I) (fuel : nat) (s : S)
    (b : WriteBuf) (task : nat) : S * WriteBuf * res unit :=
  match encode_to_write_buf E fuel s b with
  | (s', b', Ok _) =>
      (s', mkWriteBuf (wb_inner b') (wb_head b') (wb_tail b') (wb_state b') (Some task), Ok tt)
  | x => x
  end.

(** ** BufferedIo: src/io.rs:389-394.  The stream [T: Read + Write] is a reader and a writer. *)
Record BufferedIo := mkBufferedIo
  { bi_rd : Reader; bi_wr : Writer; bi_rbuf : ReadBuf; bi_wbuf : WriteBuf }.
(** src/io.rs:408-414. *)
Definition bi_new (rd : Reader) (wr : Writer) (rsize wsize : nat) : BufferedIo :=
  mkBufferedIo rd wr (rb_new (repeat x00 rsize)) (wb_new (repeat x00 wsize)).
(** [execute_io]: src/io.rs:399-403. *)
Definition bi_execute (b : BufferedIo) : BufferedIo * res unit * option nat :=
  match rb_fill (bi_rbuf b) (bi_rd b) with
  | (rb, rd, Ok _) =>
      let '(wb, wr, r, woken) := wb_flush (bi_wbuf b) (bi_wr b) in
      (mkBufferedIo rd wr rb wb, r, woken)
  | (rb, rd, r) => (mkBufferedIo rd (bi_wr b) rb (bi_wbuf b), r, None)
  end.
(** src/io.rs:417-419, 422-425. *)
Definition bi_is_eos (b : BufferedIo) : bool :=
  st_is_eos (rb_state (bi_rbuf b)) || st_is_eos (wb_state (bi_wbuf b)).
Definition bi_would_block (b : BufferedIo) : bool :=
  st_would_block (rb_state (bi_rbuf b)) &&
  (wb_is_empty (bi_wbuf b) || st_would_block (wb_state (bi_wbuf b))).

(** ** src/io_async.rs

    [Poll<T>]; an [AsyncRead]/[AsyncWrite] object is a reader/writer whose plan can also say
    [Pending] ([None]). *)
Inductive Poll (A : Type) := Pending | Ready (a : A).
Arguments Pending {A}.
Arguments Ready {A} a.
Record AReader := mkAReader { ar_data : list byte; ar_plan : list (option RdPlan) }.
Record AWriter := mkAWriter { aw_data : list byte; aw_plan : list (option WrPlan) }.

(** [AsyncRead::poll_read] (called at src/io_async.rs:22) with [k] bytes of space. *)
Definition poll_read (r : AReader) (k : nat) : AReader * Poll (list byte + IoErr) :=
  match ar_plan r with
  | None :: p => (mkAReader (ar_data r) p, Pending)
  | Some x :: p =>
      let '(r', o) := rd_read (mkReader (ar_data r) [x]) k in (mkAReader (rd_data r') p, Ready o)
  | [] => let '(r', o) := rd_read (mkReader (ar_data r) []) k in
          (mkAReader (rd_data r') [], Ready o)
  end.
(** [AsyncWrite::poll_write] (called at src/io_async.rs:63). *)
Definition poll_write (w : AWriter) (d : list byte) : AWriter * Poll (nat + IoErr) :=
  match aw_plan w with
  | None :: p => (mkAWriter (aw_data w) p, Pending)
  | Some x :: p =>
      let '(w', o) := wr_write (mkWriter (aw_data w) [x]) d in (mkAWriter (wr_data w') p, Ready o)
  | [] => let '(w', o) := wr_write (mkWriter (aw_data w) []) d in
          (mkAWriter (wr_data w') [], Ready o)
  end.

(** [poll_fill]: src/io_async.rs:15-43. *)
Fixpoint rb_poll_fill_loop (fuel : nat) (b : ReadBuf) (r : AReader)
    : ReadBuf * AReader * Poll (res unit) :=
  if rb_is_full b then (b, r, Ready (Ok tt))
  else match fuel with
  | 0 => (b, r, Ready OutOfFuel)
  | S fuel' =>
      match usize_sub (length (rb_inner b)) (rb_tail b) with
      | None => (b, r, Ready Panic)
      | Some room =>
          match poll_read r room with
          | (r', Pending) => (rb_set_state b StWouldBlock, r', Pending)
          | (r', Ready (inl [])) => (rb_set_state b StEos, r', Ready (Ok tt))
          | (r', Ready (inl (x :: l))) =>
              let data := x :: l in
              rb_poll_fill_loop fuel'
                (mkReadBuf (overwrite (rb_inner b) (rb_tail b) data) (rb_head b)
                           (rb_tail b + length data) StNormal) r'
          | (r', Ready (inr e)) => (rb_set_state b StError, r', Ready (Err (err_of_io e)))
          end
      end
  end.
Definition rb_poll_fill (b : ReadBuf) (r : AReader) : ReadBuf * AReader * Poll (res unit) :=
  rb_poll_fill_loop (S (length (rb_inner b))) b r.

(** [poll_flush]: src/io_async.rs:55-91. *)
Fixpoint wb_poll_flush_loop (fuel : nat) (b : WriteBuf) (w : AWriter)
    : WriteBuf * AWriter * Poll (res unit) :=
  if wb_is_empty b then (b, w, Ready (Ok tt))
  else match fuel with
  | 0 => (b, w, Ready OutOfFuel)
  | S fuel' =>
      match window (wb_inner b) (wb_head b) (wb_tail b) with
      | None => (b, w, Ready Panic)
      | Some d =>
          match poll_write w d with
          | (w', Pending) => (wb_set_state b StWouldBlock, w', Pending)
          | (w', Ready (inr e)) => (wb_set_state b StError, w', Ready (Err (err_of_io e)))
          | (w', Ready (inl 0)) => (wb_set_state b StEos, w', Ready (Ok tt))
          | (w', Ready (inl n)) => wb_poll_flush_loop fuel' (wb_advance b n) w'
          end
      end
  end.
Definition wb_poll_flush (b : WriteBuf) (w : AWriter) : WriteBuf * AWriter * Poll (res unit) :=
  wb_poll_flush_loop (S (wb_tail b)) b w.

(** [BufferedIo<T: AsyncRead + AsyncWrite>] and [execute_io_poll]: src/io_async.rs:99-118. *)
Record ABufferedIo := mkABufferedIo
  { ab_rd : AReader; ab_wr : AWriter; ab_rbuf : ReadBuf; ab_wbuf : WriteBuf }.
Definition ab_execute_poll (b : ABufferedIo) : ABufferedIo * Poll (res unit) :=
  let '(rb, rd, rr) := rb_poll_fill (ab_rbuf b) (ab_rd b) in
  let '(wb, wr, wr_) := wb_poll_flush (ab_wbuf b) (ab_wr b) in
  (mkABufferedIo rd wr rb wb,
   match rr, wr_ with
   | Pending, Pending => Pending
   | Ready (Ok _), Pending => Ready (Ok tt)
   | Ready r, Pending => Ready r
   | Pending, Ready w => Ready w
   | Ready (Ok _), Ready w => Ready w
   | Ready r, Ready _ => Ready r
   end).
