(** * A task that receives messages from an asynchronous connection: specification of C98. *)
From Verif Require Export IoSpec.
Set Implicit Arguments.

(** One poll of the task, the body of a [Future::poll]:
<<
    loop {
        let pending = rbuf.poll_fill(cx, &mut connection)?.is_pending();
        let over = rbuf.is_empty() && rbuf.stream_state().is_eos();
        decoder.decode_from_read_buf(&mut rbuf)?;
        if decoder.is_idle() { items.push(decoder.finish_decoding()?); }
        else if over { return Poll::Ready(Ok(())); }
        else if pending { return Poll::Pending; }
    }
>>
    ([poll_fill]: src/io_async.rs:15-43, [decode_from_read_buf]: src/io.rs:11-23).  [turns] bounds the turns of the
    loop; [OutOfFuel] if they do not suffice. *)
Fixpoint recv_poll {T I} (D : Decoder T I) (fuel turns : nat) (rb : ReadBuf) (s : T) (r : AReader) (items : list I)
    : ReadBuf * T * AReader * list I * Poll (res unit) :=
  match turns with
  | 0 => (rb, s, r, items, Ready OutOfFuel)
  | S turns' =>
      let '(rb1, r1, p) := rb_poll_fill rb r in
      match sync_result p with
      | Ok _ =>
          let over := rb_is_empty rb1 && st_is_eos (rb_state rb1) in
          match decode_from_read_buf D fuel s rb1 with
          | (s1, rb2, Ok _) =>
              if dec_idle D s1 then
                match dec_finish D s1 with
                | (s2, Ok i) => recv_poll D fuel turns' rb2 s2 r1 (items ++ [i])
                | (s2, x) => (rb2, s2, r1, items, Ready (rcast x))
                end
              else if over then (rb2, s1, r1, items, Ready (Ok tt))
              else match p with
                   | Pending => (rb2, s1, r1, items, Pending)
                   | Ready _ => recv_poll D fuel turns' rb2 s1 r1 items
                   end
          | (s1, rb2, x) => (rb2, s1, r1, items, Ready x)
          end
      | x => (rb1, s, r1, items, Ready x)
      end
  end.

(** The runtime polls the task, and again whenever it is woken, at most [polls] times. *)
Fixpoint recv_task {T I} (D : Decoder T I) (fuel turns polls : nat) (rb : ReadBuf) (s : T) (r : AReader)
    (items : list I) : ReadBuf * T * AReader * list I * Poll (res unit) :=
  match polls with
  | 0 => (rb, s, r, items, Pending)
  | S polls' =>
      match recv_poll D fuel turns rb s r items with
      | (rb', s', r', items', Pending) => recv_task D fuel turns polls' rb' s' r' items'
      | y => y
      end
  end.

(** The task that gives up its turn as soon as [poll_fill] is pending ([ready!(rbuf.poll_fill(..))?]). *)
Fixpoint hasty_poll {T I} (D : Decoder T I) (fuel turns : nat) (rb : ReadBuf) (s : T) (r : AReader) (items : list I)
    : ReadBuf * T * AReader * list I * Poll (res unit) :=
  match turns with
  | 0 => (rb, s, r, items, Ready OutOfFuel)
  | S turns' =>
      match rb_poll_fill rb r with
      | (rb1, r1, Pending) => (rb1, s, r1, items, Pending)
      | (rb1, r1, Ready (Ok _)) =>
          let over := rb_is_empty rb1 && st_is_eos (rb_state rb1) in
          match decode_from_read_buf D fuel s rb1 with
          | (s1, rb2, Ok _) =>
              if dec_idle D s1 then
                match dec_finish D s1 with
                | (s2, Ok i) => hasty_poll D fuel turns' rb2 s2 r1 (items ++ [i])
                | (s2, x) => (rb2, s2, r1, items, Ready (rcast x))
                end
              else if over then (rb2, s1, r1, items, Ready (Ok tt))
              else hasty_poll D fuel turns' rb2 s1 r1 items
          | (s1, rb2, x) => (rb2, s1, r1, items, Ready x)
          end
      | (rb1, r1, Ready x) => (rb1, s, r1, items, Ready x)
      end
  end.
Fixpoint hasty_task {T I} (D : Decoder T I) (fuel turns polls : nat) (rb : ReadBuf) (s : T) (r : AReader)
    (items : list I) : ReadBuf * T * AReader * list I * Poll (res unit) :=
  match polls with
  | 0 => (rb, s, r, items, Pending)
  | S polls' =>
      match hasty_poll D fuel turns rb s r items with
      | (rb', s', r', items', Pending) => hasty_task D fuel turns polls' rb' s' r' items'
      | y => y
      end
  end.

(** How often the connection answers "pending". *)
Definition pendings (plan : list (option RdPlan)) : nat :=
  length (filter (fun x => match x with None => true | _ => false end) plan).
(** A read failed. *)
Definition poll_failed (plan : list (option RdPlan)) (k : ErrorKind) : Prop :=
  exists e, In (Some (RdErr e)) plan /\ k = reported_kind e.

(** * A task that sends messages to an asynchronous connection: specification of C99. *)

(** One poll of the task:
<<
    loop {
        if encoder.is_idle() { if let Some(i) = items.pop_front() { encoder.start_encoding(i)?; } }
        encoder.encode_to_write_buf(&mut wbuf)?;
        let pending = wbuf.poll_flush(cx, &mut connection)?.is_pending();
        if wbuf.stream_state().is_eos() { return Poll::Ready(Err(ErrorKind::UnexpectedEos.into())); }
        if encoder.is_idle() && items.is_empty() && wbuf.is_empty() { return Poll::Ready(Ok(())); }
        if pending { return Poll::Pending; }
    }
>>
    ([encode_to_write_buf]: src/io.rs:60-68, [poll_flush]: src/io_async.rs:55-91). *)
Fixpoint send_poll {S I} (E : Encoder S I) (fuel turns : nat) (todo : list I) (s : S) (wb : WriteBuf) (w : AWriter)
    : list I * S * WriteBuf * AWriter * Poll (res unit) :=
  match turns with
  | 0 => (todo, s, wb, w, Ready OutOfFuel)
  | S turns' =>
      let '(todo1, s1, r1) :=
        match todo with
        | i :: todo' =>
            if enc_idle E s then let '(s', r) := enc_start E fuel s i in (todo', s', r) else (todo, s, Ok tt)
        | [] => ([], s, Ok tt)
        end in
      match r1 with
      | Ok _ =>
          match encode_to_write_buf E fuel s1 wb with
          | (s2, wb1, Ok _) =>
              let '(wb2, w2, p) := wb_poll_flush wb1 w in
              match sync_result p with
              | Ok _ =>
                  if st_is_eos (wb_state wb2) then (todo1, s2, wb2, w2, Ready (Err UnexpectedEos))
                  else if enc_idle E s2 && (match todo1 with [] => true | _ => false end) && wb_is_empty wb2
                  then (todo1, s2, wb2, w2, Ready (Ok tt))
                  else match p with
                       | Pending => (todo1, s2, wb2, w2, Pending)
                       | Ready _ => send_poll E fuel turns' todo1 s2 wb2 w2
                       end
              | x => (todo1, s2, wb2, w2, Ready x)
              end
          | (s2, wb1, x) => (todo1, s2, wb1, w, Ready x)
          end
      | x => (todo1, s1, wb, w, Ready x)
      end
  end.
Fixpoint send_task {S I} (E : Encoder S I) (fuel turns polls : nat) (todo : list I) (s : S) (wb : WriteBuf) (w : AWriter)
    : list I * S * WriteBuf * AWriter * Poll (res unit) :=
  match polls with
  | 0 => (todo, s, wb, w, Pending)
  | S polls' =>
      match send_poll E fuel turns todo s wb w with
      | (todo', s', wb', w', Pending) => send_task E fuel turns polls' todo' s' wb' w'
      | y => y
      end
  end.
Definition wpendings (plan : list (option WrPlan)) : nat :=
  length (filter (fun x => match x with None => true | _ => false end) plan).
