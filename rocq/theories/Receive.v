(** * A program that receives messages until the connection ends: specification of C94. *)
From Verif Require Export IoSpec.
Set Implicit Arguments.

(** The loop
<<
    loop {
        rbuf.fill(&mut connection)?;
        let over = rbuf.is_empty() && rbuf.stream_state().is_eos();
        decoder.decode_from_read_buf(&mut rbuf)?;
        if decoder.is_idle() { items.push(decoder.finish_decoding()?); }
        else if over { return Ok(()); }
    }
>>
    ([fill]: src/io.rs:202-225, [decode_from_read_buf]: src/io.rs:11-23).  [back] is what can still be read from the
    connection.  Each element of [plans] is what the connection answers in one turn of the loop.  The result: the
    items, and how the loop has ended ([None]: it has not, after these turns). *)
Fixpoint receive {T I} (D : Decoder T I) (fuel : nat) (plans : list (list RdPlan))
    (rb : ReadBuf) (s : T) (back : list byte) (items : list I) : list I * option (res unit) :=
  match plans with
  | [] => (items, None)
  | plan :: plans' =>
      match rb_fill rb (mkReader back plan) with
      | (rb1, r1, Ok _) =>
          let over := rb_is_empty rb1 && st_is_eos (rb_state rb1) in
          match decode_from_read_buf D fuel s rb1 with
          | (s1, rb2, Ok _) =>
              if dec_idle D s1 then
                match dec_finish D s1 with
                | (s2, Ok i) => receive D fuel plans' rb2 s2 (rd_data r1) (items ++ [i])
                | (_, r) => (items, Some (rcast r))
                end
              else if over then (items, Some (Ok tt))
              else receive D fuel plans' rb2 s1 (rd_data r1) items
          | (_, _, r) => (items, Some r)
          end
      | (_, _, r) => (items, Some r)
      end
  end.

(** The connection does not report its end early. *)
Definition true_end (plans : list (list RdPlan)) : Prop := forall plan, In plan plans -> ~ In RdZero plan.
(** A read other than "would block" failed. *)
Definition read_failed (plans : list (list RdPlan)) (k : ErrorKind) : Prop :=
  exists plan e, In plan plans /\ In (RdErr e) plan /\ e <> IoWouldBlock /\ k = reported_kind e.
(** The turns whose first read does not fail. *)
Definition willing_turns (plans : list (list RdPlan)) : nat :=
  length (filter (fun plan => match plan with RdErr _ :: _ => false | _ => true end) plans).
