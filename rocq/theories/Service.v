(** * A service on an asynchronous connection, driven by [execute_io_poll]: specification of C101. *)
From Verif Require Export IoSpec Task.
Set Implicit Arguments.

(** The task: the connection with its two buffers, the decoder of requests, the encoder of replies, the replies not yet started, and
    the requests received so far. *)
Record service (Sd Se I J : Type) := mkService
  { v_io : ABufferedIo; v_dec : Sd; v_enc : Se; v_todo : list J; v_got : list I }.
Arguments mkService {Sd Se I J} v_io v_dec v_enc v_todo v_got.

(** One turn of the loop in its [Future::poll]:
<<
    let _ = io.execute_io_poll(cx)?;                                     // src/io_async.rs:99-118
    if io.write_buf_ref().stream_state().is_eos() { return Poll::Ready(Err(ErrorKind::UnexpectedEos.into())); }
    let over = io.read_buf_ref().is_empty() && io.read_buf_ref().stream_state().is_eos();
    decoder.decode_from_read_buf(io.read_buf_mut())?;                    // src/io.rs:11-23
    let fresh = decoder.is_idle();
    if fresh { replies.push_back(reply(decoder.finish_decoding()?)); }
    if encoder.is_idle() { if let Some(i) = replies.pop_front() { encoder.start_encoding(i)?; } }
    encoder.encode_to_write_buf(io.write_buf_mut())?;                    // src/io.rs:60-68
    let sent = encoder.is_idle() && replies.is_empty() && io.write_buf_ref().is_empty();
    if over && sent { return Poll::Ready(Ok(())); }
    let read_waits = over || !fresh && io.read_buf_ref().stream_state().would_block();
    let write_waits = sent || io.write_buf_ref().stream_state().would_block();
    if read_waits && write_waits { return Poll::Pending; }
>>
    [None]: go on with the next turn. *)
Definition serve_turn {Sd Se I J} (D : Decoder Sd I) (E : Encoder Se J) (reply : I -> J) (fuel : nat) (v : service Sd Se I J)
    : service Sd Se I J * option (Poll (res unit)) :=
  let '(io, x) := ab_execute_poll (v_io v) in
  match sync_result x with
  | Ok _ =>
      let wb := ab_wbuf io in
      if st_is_eos (wb_state wb)
      then (mkService io (v_dec v) (v_enc v) (v_todo v) (v_got v), Some (Ready (Err UnexpectedEos)))
      else
        let rb := ab_rbuf io in
        let over := rb_is_empty rb && st_is_eos (rb_state rb) in
        match decode_from_read_buf D fuel (v_dec v) rb with
        | (s1, rb1, Ok _) =>
            let io1 := mkABufferedIo (ab_rd io) (ab_wr io) rb1 wb in
            let fresh := dec_idle D s1 in
            let '(s2, todo1, got1, r2) :=
              if fresh then
                match dec_finish D s1 with
                | (s2, Ok i) => (s2, v_todo v ++ [reply i], v_got v ++ [i], Ok tt)
                | (s2, y) => (s2, v_todo v, v_got v, rcast y)
                end
              else (s1, v_todo v, v_got v, Ok tt) in
            match r2 with
            | Ok _ =>
                let '(todo2, e1, r3) :=
                  match todo1 with
                  | i :: todo' =>
                      if enc_idle E (v_enc v) then let '(e', r) := enc_start E fuel (v_enc v) i in (todo', e', r)
                      else (todo1, v_enc v, Ok tt)
                  | [] => ([], v_enc v, Ok tt)
                  end in
                match r3 with
                | Ok _ =>
                    match encode_to_write_buf E fuel e1 wb with
                    | (e2, wb1, Ok _) =>
                        let v' := mkService (mkABufferedIo (ab_rd io) (ab_wr io) rb1 wb1) s2 e2 todo2 got1 in
                        let sent := enc_idle E e2 && (match todo2 with [] => true | _ => false end) && wb_is_empty wb1 in
                        if over && sent then (v', Some (Ready (Ok tt)))
                        else
                          let read_waits := over || (negb fresh && st_would_block (rb_state rb1)) in
                          let write_waits := sent || st_would_block (wb_state wb1) in
                          (v', if read_waits && write_waits then Some Pending else None)
                    | (e2, wb1, y) =>
                        (mkService (mkABufferedIo (ab_rd io) (ab_wr io) rb1 wb1) s2 e2 todo2 got1, Some (Ready y))
                    end
                | y => (mkService io1 s2 e1 todo2 got1, Some (Ready y))
                end
            | y => (mkService io1 s2 (v_enc v) todo1 got1, Some (Ready y))
            end
        | (s1, rb1, y) =>
            (mkService (mkABufferedIo (ab_rd io) (ab_wr io) rb1 wb) s1 (v_enc v) (v_todo v) (v_got v), Some (Ready y))
        end
  | y => (mkService io (v_dec v) (v_enc v) (v_todo v) (v_got v), Some (Ready y))
  end.
Fixpoint serve_poll {Sd Se I J} (D : Decoder Sd I) (E : Encoder Se J) (reply : I -> J) (fuel turns : nat) (v : service Sd Se I J)
    : service Sd Se I J * Poll (res unit) :=
  match turns with
  | 0 => (v, Ready OutOfFuel)
  | S turns' =>
      match serve_turn D E reply fuel v with
      | (v', None) => serve_poll D E reply fuel turns' v'
      | (v', Some o) => (v', o)
      end
  end.
(** The runtime polls the task, and again whenever it is woken, at most [polls] times. *)
Fixpoint serve_task {Sd Se I J} (D : Decoder Sd I) (E : Encoder Se J) (reply : I -> J) (fuel turns polls : nat)
    (v : service Sd Se I J) : service Sd Se I J * Poll (res unit) :=
  match polls with
  | 0 => (v, Pending)
  | S polls' =>
      match serve_poll D E reply fuel turns v with
      | (v', Pending) => serve_task D E reply fuel turns polls' v'
      | y => y
      end
  end.

(** The task that relies on [execute_io_poll] to say when to sleep:
<<
    loop {
        ready!(io.execute_io_poll(cx))?;
        ... receive, reply and encode as above, return when all is done ...
    }
>> *)
Fixpoint naive_poll {Sd Se I J} (D : Decoder Sd I) (E : Encoder Se J) (reply : I -> J) (fuel turns : nat) (v : service Sd Se I J)
    : service Sd Se I J * Poll (res unit) :=
  match turns with
  | 0 => (v, Ready OutOfFuel)
  | S turns' =>
      match ab_execute_poll (v_io v) with
      | (io, Pending) => (mkService io (v_dec v) (v_enc v) (v_todo v) (v_got v), Pending)
      | _ =>
          match serve_turn D E reply fuel v with
          | (v', Some (Ready x)) => (v', Ready x)
          | (v', _) => naive_poll D E reply fuel turns' v'
          end
      end
  end.
