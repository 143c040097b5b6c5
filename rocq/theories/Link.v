(** * A sender and a receiver connected by a stream: specification of C46.

    The sender has items to send, an encoder and a [WriteBuf]; the receiver a [ReadBuf], a decoder
    and the items received so far.  Between them is a stream, which holds the bytes written and
    not yet read. *)
From Verif Require Export IoSpec.
Set Implicit Arguments.

Record link (Se Sd A : Type) := mkLink
  { l_todo : list A; l_enc : Se; l_wbuf : WriteBuf; l_stream : list byte;
    l_rbuf : ReadBuf; l_dec : Sd; l_got : list A }.

(** What the two sides can do, at any time and in any order:
    - start the next item, when the encoder is idle;
    - [encode_to_write_buf];
    - [flush] into the stream, which accepts as the plan says: parts of what it is given,
      "would block", errors;
    - [fill] from the stream, which gives as the plan says;
    - [decode_from_read_buf], followed by [finish_decoding] if the decoder has become idle. *)
Inductive action :=
| AStart
| AEncode
| AFlush (plan : list WrPlan)
| AFill (plan : list RdPlan)
| ADecode.

(** The result of the action, or nothing if it does not apply:
    - the writer does not claim that the stream is closed ([write] returning 0);
    - [read] returns 0, "end of stream", only if the sender has nothing left, and neither has
      the stream;
    - the receiver stops at the end of the stream, when it has used up its buffer. *)
Definition act {Se Sd A} (E : Encoder Se A) (D : Decoder Sd A) (fuel : nat) (a : action)
    (l : link Se Sd A) : option (link Se Sd A * res unit) :=
  match a with
  | AStart =>
      match l_todo l with
      | i :: todo =>
          if enc_idle E (l_enc l) then
            let '(s', r) := enc_start E fuel (l_enc l) i in
            Some (mkLink todo s' (l_wbuf l) (l_stream l) (l_rbuf l) (l_dec l) (l_got l), r)
          else None
      | [] => None
      end
  | AEncode =>
      let '(s', wb, r) := encode_to_write_buf E fuel (l_enc l) (l_wbuf l) in
      Some (mkLink (l_todo l) s' wb (l_stream l) (l_rbuf l) (l_dec l) (l_got l), r)
  | AFlush plan =>
      if existsb (fun p => match p with WrZero => true | _ => false end) plan then None
      else
        let '(wb, w, r, _) := wb_flush (l_wbuf l) (mkWriter (l_stream l) plan) in
        Some (mkLink (l_todo l) (l_enc l) wb (wr_data w) (l_rbuf l) (l_dec l) (l_got l), r)
  | AFill plan =>
      let '(rb, rd, r) := rb_fill (l_rbuf l) (mkReader (l_stream l) plan) in
      let sent := match l_todo l, rd_data rd with
                  | [], [] => enc_idle E (l_enc l) && wb_is_empty (l_wbuf l)
                  | _, _ => false
                  end in
      if st_is_eos (rb_state rb) && negb sent then None
      else Some (mkLink (l_todo l) (l_enc l) (l_wbuf l) (rd_data rd) rb (l_dec l) (l_got l), r)
  | ADecode =>
      if st_is_eos (rb_state (l_rbuf l)) && rb_is_empty (l_rbuf l) then None
      else
        match decode_from_read_buf D fuel (l_dec l) (l_rbuf l) with
        | (s', rb, Ok _) =>
            if dec_idle D s' then
              match dec_finish D s' with
              | (s2, Ok i) =>
                  Some (mkLink (l_todo l) (l_enc l) (l_wbuf l) (l_stream l) rb s2
                               (l_got l ++ [i]), Ok tt)
              | (s2, r) =>
                  Some (mkLink (l_todo l) (l_enc l) (l_wbuf l) (l_stream l) rb s2 (l_got l),
                        rcast r)
              end
            else Some (mkLink (l_todo l) (l_enc l) (l_wbuf l) (l_stream l) rb s' (l_got l), Ok tt)
        | (s', rb, r) =>
            Some (mkLink (l_todo l) (l_enc l) (l_wbuf l) (l_stream l) rb s' (l_got l), r)
        end
  end.

(** Something got on its way: an item was started or completed, or bytes were moved. *)
Definition moves {Se Sd A} (E : Encoder Se A) (l l' : link Se Sd A) : Prop :=
  l_todo l' <> l_todo l \/ enc_idle E (l_enc l') <> enc_idle E (l_enc l) \/
  wb_content (l_wbuf l') <> wb_content (l_wbuf l) \/ l_stream l' <> l_stream l \/
  rb_content (l_rbuf l') <> rb_content (l_rbuf l).

(** [reaches l0 n l]: [l] can be reached from [l0] by actions of which at least [n] moved something. *)
Inductive reaches {Se Sd A} (E : Encoder Se A) (D : Decoder Sd A) (fuel : nat)
    (l0 : link Se Sd A) : nat -> link Se Sd A -> Prop :=
| reaches_start : reaches E D fuel l0 0 l0
| reaches_step : forall n l a l' r,
    reaches E D fuel l0 n l -> act E D fuel a l = Some (l', r) -> reaches E D fuel l0 n l'
| reaches_move : forall n l a l' r,
    reaches E D fuel l0 n l -> act E D fuel a l = Some (l', r) -> moves E l l' ->
    reaches E D fuel l0 (S n) l'.

(** The stream itself failed during the action, with the error [e]. *)
Definition stream_error (a : action) (e : IoErr) : Prop :=
  match a with
  | AFlush plan => In (WrErr e) plan
  | AFill plan => In (RdErr e) plan
  | _ => False
  end.
