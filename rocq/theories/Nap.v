(** * When a program over non-blocking I/O may sleep: specification of C102. *)
From Verif Require Export IoSpec.
Set Implicit Arguments.

(** Any use of a [BufferedIo]: [execute_io], whatever it returns; bytes taken out of the read buffer with [read] or by decoders, and
    put into the write buffer with [write] or by encoders, any number of them, as long as a decoder does not claim more bytes than it
    was given and an encoder stays within its buffer (C08 and C09 for those of the crate).  The calls may fail. *)
Inductive worked (b0 : BufferedIo) : BufferedIo -> Prop :=
| worked_new : worked b0 b0
| worked_io : forall b b' x woken, worked b0 b -> bi_execute b = (b', x, woken) -> worked b0 b'
| worked_read : forall rd wr rb wb k rb' x, worked b0 (mkBufferedIo rd wr rb wb) ->
    rb_read rb k = (rb', x) -> worked b0 (mkBufferedIo rd wr rb' wb)
| worked_decode : forall rd wr rb wb S I (D : Decoder S I) fuel s s' rb' x, worked b0 (mkBufferedIo rd wr rb wb) ->
    (forall e s1 n, dec_decode D fuel s (rb_content rb) e = (s1, Ok n) -> n <= length (rb_content rb)) ->
    decode_from_read_buf D fuel s rb = (s', rb', x) -> worked b0 (mkBufferedIo rd wr rb' wb)
| worked_write : forall rd wr rb wb data wb' x, worked b0 (mkBufferedIo rd wr rb wb) ->
    wb_write wb data = (wb', x) -> worked b0 (mkBufferedIo rd wr rb wb')
| worked_encode : forall rd wr rb wb S I (E : Encoder S I) fuel s s' wb' x, worked b0 (mkBufferedIo rd wr rb wb) ->
    (forall buf e s1 buf' r, enc_encode E fuel s buf e = (s1, buf', r) ->
       length buf' = length buf /\ forall n, r = Ok n -> n <= length buf) ->
    encode_to_write_buf E fuel s wb = (s', wb', x) -> worked b0 (mkBufferedIo rd wr rb wb').

(** ** The same over an asynchronous stream: specification of C103 *)

(** [BufferedIo::would_block] and [is_eos] (src/io.rs:417-425) of a [BufferedIo] over an asynchronous stream. *)
Definition ab_would_block (b : ABufferedIo) : bool :=
  st_would_block (rb_state (ab_rbuf b)) && (wb_is_empty (ab_wbuf b) || st_would_block (wb_state (ab_wbuf b))).
Definition ab_is_eos (b : ABufferedIo) : bool := st_is_eos (rb_state (ab_rbuf b)) || st_is_eos (wb_state (ab_wbuf b)).
(** [BufferedIo::new]: src/io.rs:408-414. *)
Definition ab_new (rd : AReader) (wr : AWriter) (rsize wsize : nat) : ABufferedIo :=
  mkABufferedIo rd wr (rb_new (repeat x00 rsize)) (wb_new (repeat x00 wsize)).

Inductive aworked (b0 : ABufferedIo) : ABufferedIo -> Prop :=
| aworked_new : aworked b0 b0
| aworked_io : forall b b' p, aworked b0 b -> ab_execute_poll b = (b', p) -> aworked b0 b'
| aworked_read : forall rd wr rb wb k rb' x, aworked b0 (mkABufferedIo rd wr rb wb) ->
    rb_read rb k = (rb', x) -> aworked b0 (mkABufferedIo rd wr rb' wb)
| aworked_decode : forall rd wr rb wb S I (D : Decoder S I) fuel s s' rb' x, aworked b0 (mkABufferedIo rd wr rb wb) ->
    (forall e s1 n, dec_decode D fuel s (rb_content rb) e = (s1, Ok n) -> n <= length (rb_content rb)) ->
    decode_from_read_buf D fuel s rb = (s', rb', x) -> aworked b0 (mkABufferedIo rd wr rb' wb)
| aworked_write : forall rd wr rb wb data wb' x, aworked b0 (mkABufferedIo rd wr rb wb) ->
    wb_write wb data = (wb', x) -> aworked b0 (mkABufferedIo rd wr rb wb')
| aworked_encode : forall rd wr rb wb S I (E : Encoder S I) fuel s s' wb' x, aworked b0 (mkABufferedIo rd wr rb wb) ->
    (forall buf e s1 buf' r, enc_encode E fuel s buf e = (s1, buf', r) ->
       length buf' = length buf /\ forall n, r = Ok n -> n <= length buf) ->
    encode_to_write_buf E fuel s wb = (s', wb', x) -> aworked b0 (mkABufferedIo rd wr rb wb').
