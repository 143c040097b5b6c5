(** * Requests and replies over [BufferedIo]: specification of C93.

    A client sends requests, at most [window] of which are unanswered at any time.  A server answers each request,
    in order, from a state of its own. *)
From Verif Require Export Duplex.
Set Implicit Arguments.

(** What the server answers to a list of requests, from the state [r] on. *)
Fixpoint replies {R A B} (serve : R -> A -> R * B) (r : R) (reqs : list A) : list B :=
  match reqs with
  | [] => []
  | i :: reqs' => snd (serve r i) :: replies serve (fst (serve r i)) reqs'
  end.

(** A turn of the client: [execute_io] (src/io.rs:399-403, or polled, src/io_async.rs:99-118); decode, and finish
    the reply if it is complete (src/io.rs:11-23); start the next request, if the encoder is idle and fewer than
    [window] requests are unanswered; encode (src/io.rs:60-68).  [sent] counts the requests started. *)
Definition client_turn {Se Sd A B} (E : Encoder Se A) (D : Decoder Sd B) (fuel : nat) (polled : bool) (window sent : nat)
    (me : side Se Sd A B) (back out : list byte) (rp : list (option RdPlan)) (wp : list (option WrPlan))
    : side Se Sd A B * nat * list byte * list byte * res unit :=
  let '(rb, wb, back', out', x) := do_io polled (d_rbuf me) (d_wbuf me) back out rp wp in
  match x with
  | Ok _ =>
      let '(rb', s', got', x1) := take_in D fuel rb (d_dec me) (d_got me) in
      match x1 with
      | Ok _ =>
          if sent - length got' <? window then
            let '(todo', e', wb', x2) := put_out E fuel (d_todo me) (d_enc me) wb in
            (mkSide todo' e' wb' rb' s' got', sent + (length (d_todo me) - length todo'), back', out', x2)
          else
            let '(e', wb', x2) := encode_to_write_buf E fuel (d_enc me) wb in
            (mkSide (d_todo me) e' wb' rb' s' got', sent, back', out', x2)
      | _ => (mkSide (d_todo me) (d_enc me) wb rb' s' got', sent, back', out', x1)
      end
  | _ => (mkSide (d_todo me) (d_enc me) wb rb (d_dec me) (d_got me), sent, back', out', x)
  end.

(** A turn of the server: the same, but if a request has been received, the state changes and the reply is put
    at the end of what is to be sent. *)
Definition server_turn {R Se Sd A B} (E : Encoder Se B) (D : Decoder Sd A) (fuel : nat) (polled : bool)
    (serve : R -> A -> R * B) (r : R)
    (me : side Se Sd B A) (back out : list byte) (rp : list (option RdPlan)) (wp : list (option WrPlan))
    : side Se Sd B A * R * list byte * list byte * res unit :=
  let '(rb, wb, back', out', x) := do_io polled (d_rbuf me) (d_wbuf me) back out rp wp in
  match x with
  | Ok _ =>
      let '(rb', s', got', x1) := take_in D fuel rb (d_dec me) (d_got me) in
      match x1 with
      | Ok _ =>
          let '(r', todo) :=
            match skipn (length (d_got me)) got' with
            | i :: _ => (fst (serve r i), d_todo me ++ [snd (serve r i)])
            | [] => (r, d_todo me)
            end in
          let '(todo', e', wb', x2) := put_out E fuel todo (d_enc me) wb in
          (mkSide todo' e' wb' rb' s' got', r', back', out', x2)
      | _ => (mkSide (d_todo me) (d_enc me) wb rb' s' got', r, back', out', x1)
      end
  | _ => (mkSide (d_todo me) (d_enc me) wb rb (d_dec me) (d_got me), r, back', out', x)
  end.

(** Client, server, and the bytes under way: requests in [p_out], replies in [p_back]. *)
Record rpc (R Sa Sb Ta Tb A B : Type) := mkRpc
  { p_client : side Sa Tb A B; p_sent : nat; p_server : side Sb Ta B A; p_state : R;
    p_out : list byte; p_back : list byte }.

(** What the connection may do: as in [legal]; the end of the stream is reported to the client only after all
    requests [reqs] have been answered, and to the server only after all have been sent. *)
Definition may (polled : bool) (rp : list (option RdPlan)) (wp : list (option WrPlan)) : Prop :=
  ~ In (Some WrZero) wp /\
  (polled = true -> ~ In (Some (RdErr IoWouldBlock)) rp /\ ~ In (Some (WrErr IoWouldBlock)) wp).

Section Run.
Context {R Sa Sb Ta Tb A B : Type}.
Variables (EA : Encoder Sa A) (DA : Decoder Ta A) (EB : Encoder Sb B) (DB : Decoder Tb B) (fuel : nat).
Variables (serve : R -> A -> R * B) (window : nat) (reqs : list A).
Notation rpc := (rpc R Sa Sb Ta Tb A B).

(** A turn of the client ([true]) or the server ([false]), with its result. *)
Inductive rstep (n : rpc) (rp : list (option RdPlan)) (wp : list (option WrPlan)) : bool -> rpc -> res unit -> Prop :=
| rstep_client : forall polled me sent back out x,
    client_turn EA DB fuel polled window (p_sent n) (p_client n) (p_back n) (p_out n) rp wp = (me, sent, back, out, x) ->
    may polled rp wp ->
    (rb_state (d_rbuf me) = StEos ->
       d_got (p_server n) = reqs /\ d_todo (p_server n) = [] /\ enc_idle EB (d_enc (p_server n)) = true /\
       wb_content (d_wbuf (p_server n)) = [] /\ back = []) ->
    rstep n rp wp true (mkRpc me sent (p_server n) (p_state n) out back) x
| rstep_server : forall polled me r back out x,
    server_turn EB DA fuel polled serve (p_state n) (p_server n) (p_out n) (p_back n) rp wp = (me, r, out, back, x) ->
    may polled rp wp ->
    (rb_state (d_rbuf me) = StEos ->
       d_todo (p_client n) = [] /\ enc_idle EA (d_enc (p_client n)) = true /\
       wb_content (d_wbuf (p_client n)) = [] /\ out = []) ->
    rstep n rp wp false (mkRpc (p_client n) (p_sent n) me r out back) x.

(** [rruns n0 h t k n]: turns in any order lead from [n0] to [n]; [k] rounds are complete, and in the current one
    the client ([h]) or the server ([t]) has had a turn in which the connection was willing. *)
Inductive rruns (n0 : rpc) : bool -> bool -> nat -> rpc -> Prop :=
| rruns_new : rruns n0 false false 0 n0
| rruns_any : forall h t k n rp wp who n' x,
    rruns n0 h t k n -> rstep n rp wp who n' x -> rruns n0 h t k n'
| rruns_client : forall h t k n rp wp n' x,
    rruns n0 h t k n -> rstep n rp wp true n' x -> willing (p_back n) rp wp -> rruns n0 true t k n'
| rruns_server : forall h t k n rp wp n' x,
    rruns n0 h t k n -> rstep n rp wp false n' x -> willing (p_out n) rp wp -> rruns n0 h true k n'
| rruns_round : forall k n, rruns n0 true true k n -> rruns n0 false false (S k) n.
End Run.
