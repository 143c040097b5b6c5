(** * Two peers that talk over a [BufferedIo] each: specification of C92.

    Each peer has items to send, an encoder, a decoder, the items received so far and the two
    buffers of its [BufferedIo].  Between them are two streams, one for each direction. *)
From Verif Require Export IoSpec.
Set Implicit Arguments.

Record side (Se Sd A B : Type) := mkSide
  { d_todo : list A; d_enc : Se; d_wbuf : WriteBuf;
    d_rbuf : ReadBuf; d_dec : Sd; d_got : list B }.

(** [execute_io] (src/io.rs:399-403), or [execute_io_poll] (src/io_async.rs:99-118) with "pending" read as
    success, on a connection from which [back] can be read and to which [out] has been written.  [rp] and [wp] are
    what the connection answers to [read] and [write]; [None] is "would block" ("pending" when polled).
    The buffers, the two streams and the result. *)
Definition do_io (polled : bool) (rb : ReadBuf) (wb : WriteBuf) (back out : list byte)
    (rp : list (option RdPlan)) (wp : list (option WrPlan))
    : ReadBuf * WriteBuf * list byte * list byte * res unit :=
  let r := mkAReader back rp in
  let w := mkAWriter out wp in
  if polled then
    let '(b, p) := ab_execute_poll (mkABufferedIo r w rb wb) in
    (ab_rbuf b, ab_wbuf b, ar_data (ab_rd b), aw_data (ab_wr b), sync_result p)
  else
    let '(b, x, _) := bi_execute (mkBufferedIo (sync_reader r) (sync_writer w) rb wb) in
    (bi_rbuf b, bi_wbuf b, rd_data (bi_rd b), wr_data (bi_wr b), x).

(** Then [decode_from_read_buf] (src/io.rs:11-23), unless the stream is over and used up, and [finish_decoding] if
    the decoder has become idle. *)
Definition take_in {Sd B} (D : Decoder Sd B) (fuel : nat) (rb : ReadBuf) (s : Sd) (got : list B)
    : ReadBuf * Sd * list B * res unit :=
  if st_is_eos (rb_state rb) && rb_is_empty rb then (rb, s, got, Ok tt)
  else
    match decode_from_read_buf D fuel s rb with
    | (s1, rb', Ok _) =>
        if dec_idle D s1 then
          match dec_finish D s1 with
          | (s2, Ok i) => (rb', s2, got ++ [i], Ok tt)
          | (s2, r) => (rb', s2, got, rcast r)
          end
        else (rb', s1, got, Ok tt)
    | (s1, rb', r) => (rb', s1, got, r)
    end.

(** Then the next item is started, if the encoder is idle, and [encode_to_write_buf] (src/io.rs:60-68) is called. *)
Definition put_out {Se A} (E : Encoder Se A) (fuel : nat) (todo : list A) (s : Se) (wb : WriteBuf)
    : list A * Se * WriteBuf * res unit :=
  match todo, enc_idle E s with
  | i :: todo', true =>
      match enc_start E fuel s i with
      | (s1, Ok _) => let '(s2, wb', r) := encode_to_write_buf E fuel s1 wb in (todo', s2, wb', r)
      | (s1, r) => (todo', s1, wb, r)
      end
  | _, _ => let '(s2, wb', r) := encode_to_write_buf E fuel s wb in (todo, s2, wb', r)
  end.

(** One turn of a peer's loop.  It ends at the first error; everything is kept for the next turn. *)
Definition turn {Se Sd A B} (E : Encoder Se A) (D : Decoder Sd B) (fuel : nat) (polled : bool)
    (me : side Se Sd A B) (back out : list byte) (rp : list (option RdPlan)) (wp : list (option WrPlan))
    : side Se Sd A B * list byte * list byte * res unit :=
  let '(rb, wb, back', out', x) := do_io polled (d_rbuf me) (d_wbuf me) back out rp wp in
  match x with
  | Ok _ =>
      let '(rb', s', got', x1) := take_in D fuel rb (d_dec me) (d_got me) in
      match x1 with
      | Ok _ =>
          let '(todo', e', wb', x2) := put_out E fuel (d_todo me) (d_enc me) wb in
          (mkSide todo' e' wb' rb' s' got', back', out', x2)
      | _ => (mkSide (d_todo me) (d_enc me) wb rb' s' got', back', out', x1)
      end
  | _ => (mkSide (d_todo me) (d_enc me) wb rb (d_dec me) (d_got me), back', out', x)
  end.

(** What the connection may do in a turn that leaves [back']: [write] does not return 0; a polled connection does
    not answer "ready: would block"; the end of the stream is reported only when the other peer has
    nothing left to send and all of it has been read. *)
Definition legal {Se Sd A B} (E : Encoder Se A) (polled : bool) (other : side Se Sd A B)
    (rp : list (option RdPlan)) (wp : list (option WrPlan)) (rb' : ReadBuf) (back' : list byte) : Prop :=
  ~ In (Some WrZero) wp /\
  (polled = true -> ~ In (Some (RdErr IoWouldBlock)) rp /\ ~ In (Some (WrErr IoWouldBlock)) wp) /\
  (rb_state rb' = StEos ->
     d_todo other = [] /\ enc_idle E (d_enc other) = true /\ wb_content (d_wbuf other) = [] /\ back' = []).

(** A turn in which the connection is willing: nothing fails, the first [read] gives something
    if there is something, and the first [write] takes something. *)
Definition willing (back : list byte) (rp : list (option RdPlan)) (wp : list (option WrPlan)) : Prop :=
  (forall e, In (Some (RdErr e)) rp \/ In (Some (WrErr e)) wp -> e = IoWouldBlock) /\
  (back <> [] -> match rp with [] | Some (RdSome _) :: _ => True | _ => False end) /\
  match wp with [] | Some (WrSome _) :: _ => True | _ => False end.

(** The result of a turn in which the connection failed. *)
Definition io_error (rp : list (option RdPlan)) (wp : list (option WrPlan)) (r : res unit) : Prop :=
  exists e, e <> IoWouldBlock /\ (In (Some (RdErr e)) rp \/ In (Some (WrErr e)) wp) /\ r = Err (reported_kind e).

(** The two peers, and the bytes under way between them. *)
Record net (Sa Sb Ta Tb A B : Type) := mkNet
  { n_here : side Sa Tb A B; n_there : side Sb Ta B A; n_out : list byte; n_back : list byte }.

Section Run.
Context {Sa Sb Ta Tb A B : Type}.
Variables (EA : Encoder Sa A) (DA : Decoder Ta A) (EB : Encoder Sb B) (DB : Decoder Tb B) (fuel : nat).
(** A turn of the one or the other peer, with what the connection answered, and the result. *)
Inductive step (n : net Sa Sb Ta Tb A B) (rp : list (option RdPlan)) (wp : list (option WrPlan))
    : bool -> net Sa Sb Ta Tb A B -> res unit -> Prop :=
| step_here : forall polled me back out r,
    turn EA DB fuel polled (n_here n) (n_back n) (n_out n) rp wp = (me, back, out, r) ->
    legal EB polled (n_there n) rp wp (d_rbuf me) back ->
    step n rp wp true (mkNet me (n_there n) out back) r
| step_there : forall polled me back out r,
    turn EB DA fuel polled (n_there n) (n_out n) (n_back n) rp wp = (me, out, back, r) ->
    legal EA polled (n_here n) rp wp (d_rbuf me) out ->
    step n rp wp false (mkNet (n_here n) me out back) r.

(** [runs n0 h t k n]: turns of the two peers, in any order, lead from [n0] to [n].  A round is complete when
    each peer has had a turn in which the connection was willing; [k] rounds are complete, and in the current one
    the one peer ([h]) or the other ([t]) has had such a turn. *)
Inductive runs (n0 : net Sa Sb Ta Tb A B) : bool -> bool -> nat -> net Sa Sb Ta Tb A B -> Prop :=
| runs_new : runs n0 false false 0 n0
| runs_any : forall h t k n rp wp who n' r,
    runs n0 h t k n -> step n rp wp who n' r -> runs n0 h t k n'
| runs_here : forall h k n rp wp n' r,
    runs n0 h false k n -> step n rp wp true n' r -> willing (n_back n) rp wp -> runs n0 true false k n'
| runs_there : forall t k n rp wp n' r,
    runs n0 false t k n -> step n rp wp false n' r -> willing (n_out n) rp wp -> runs n0 false true k n'
| runs_round_here : forall h k n rp wp n' r,
    runs n0 h true k n -> step n rp wp true n' r -> willing (n_back n) rp wp -> runs n0 false false (S k) n'
| runs_round_there : forall t k n rp wp n' r,
    runs n0 true t k n -> step n rp wp false n' r -> willing (n_out n) rp wp -> runs n0 false false (S k) n'.
End Run.
