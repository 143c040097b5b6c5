(** * A producer that sleeps while the write buffer is full, and an I/O loop that flushes it: specification of C100. *)
From Verif Require Export IoSpec.
Set Implicit Arguments.

(** One poll of the producer, with the waker [task]:
<<
    loop {
        if encoder.is_idle() {
            match items.pop_front() { Some(i) => encoder.start_encoding(i)?, None => return Poll::Ready(Ok(())) }
        }
        encoder.encode_to_write_buf_async(&mut wbuf, cx)?;
        if !encoder.is_idle() { return Poll::Pending; }
    }
>>
    ([encode_to_write_buf_async]: src/io.rs:76-89). *)
Fixpoint produce {S I} (E : Encoder S I) (fuel turns : nat) (task : nat) (todo : list I) (s : S) (wb : WriteBuf)
    : list I * S * WriteBuf * Poll (res unit) :=
  match turns with
  | 0 => (todo, s, wb, Ready OutOfFuel)
  | S turns' =>
      let go todo s :=
        match encode_to_write_buf_async E fuel s wb task with
        | (s2, wb2, Ok _) => if enc_idle E s2 then produce E fuel turns' task todo s2 wb2 else (todo, s2, wb2, Pending)
        | (s2, wb2, x) => (todo, s2, wb2, Ready x)
        end in
      if enc_idle E s then
        match todo with
        | [] => (todo, s, wb, Ready (Ok tt))
        | i :: todo' =>
            match enc_start E fuel s i with
            | (s1, Ok _) => go todo' s1
            | (s1, x) => (todo', s1, wb, Ready x)
            end
        end
      else go todo s
  end.

(** The producer can run, waits to be woken, or has returned [Ready]. *)
Inductive mode := Awake | Asleep | Finished.
Record works (S I : Type) := mkWorks
  { k_todo : list I; k_enc : S; k_wbuf : WriteBuf; k_out : list byte; k_mode : mode }.
Arguments mkWorks {S I} k_todo k_enc k_wbuf k_out k_mode.

(** What can happen, in any order: the runtime polls the producer, if it is awake; the I/O loop calls [flush] (src/io.rs:323-356)
    on a connection that accepts as the plan says, and whoever that wakes is awake; or it calls [poll_flush] (src/io_async.rs:55-91), which wakes nobody. *)
Inductive event := Run | Flush (plan : list WrPlan) | PollFlush (plan : list (option WrPlan)).
Definition happen {S I} (E : Encoder S I) (fuel turns task : nat) (x : event) (k : works S I) : works S I * res unit :=
  match x with
  | Run =>
      match k_mode k with
      | Awake =>
          match produce E fuel turns task (k_todo k) (k_enc k) (k_wbuf k) with
          | (todo, s, wb, Pending) => (mkWorks todo s wb (k_out k) Asleep, Ok tt)
          | (todo, s, wb, Ready r) => (mkWorks todo s wb (k_out k) Finished, r)
          end
      | _ => (k, Ok tt)
      end
  | Flush plan =>
      let '(wb, w, r, woken) := wb_flush (k_wbuf k) (mkWriter (k_out k) plan) in
      let m := match k_mode k, woken with
               | Asleep, Some t => if Nat.eqb t task then Awake else Asleep
               | m, _ => m
               end in
      (mkWorks (k_todo k) (k_enc k) wb (wr_data w) m, r)
  | PollFlush plan =>
      let '(wb, w, p) := wb_poll_flush (k_wbuf k) (mkAWriter (k_out k) plan) in
      (mkWorks (k_todo k) (k_enc k) wb (aw_data w) (k_mode k), sync_result p)
  end.
Fixpoint all_happen {S I} (E : Encoder S I) (fuel turns task : nat) (xs : list event) (k : works S I)
    : works S I * list (res unit) :=
  match xs with
  | [] => (k, [])
  | x :: xs' =>
      let '(k1, r) := happen E fuel turns task x k in
      let '(k2, rs) := all_happen E fuel turns task xs' k1 in (k2, r :: rs)
  end.

(** The I/O loop uses [flush] only, and the connection does not close. *)
Definition flushes (x : event) : Prop :=
  match x with Run => True | Flush plan => ~ In WrZero plan | PollFlush _ => False end.
(** Rounds: the producer is polled if it is awake, then the buffer is flushed. *)
Definition rounds (plans : list (list WrPlan)) : list event := concat (map (fun plan => [Run; Flush plan]) plans).
(** The rounds in which the connection does not refuse the first write. *)
Definition willing_rounds (plans : list (list WrPlan)) : nat :=
  length (filter (fun plan => match plan with WrErr _ :: _ => false | _ => true end) plans).
