(** * Protocols: the next codec depends on the items so far.  Specification of C97. *)
From Verif Require Export IoSpec Universe Sound Receive.
Set Implicit Arguments.

(** A protocol: the result, or a codec for the next message and how to go on after it.  (A header that says which
    kind of body follows, a version number that selects a format, a handshake that switches to another format.) *)
Inductive proto (R : Type) : Type :=
| PDone (x : R)
| PNext {A : Type} (c : codec A) (next : A -> proto R).
Arguments PDone {R} x.
Arguments PNext {R A} c next.

(** The messages [ws] are a run of the protocol with the result [x]. *)
Inductive speaks {R} : proto R -> list (list byte) -> R -> Prop :=
| speaks_done : forall x, speaks (PDone x) [] x
| speaks_next : forall A (c : codec A) next w a ws x,
    reads c w a -> speaks (next a) ws x -> speaks (PNext c next) (w :: ws) x.

(** All codecs of the protocol have a property. *)
Fixpoint each {R} (Q : forall A, codec A -> Prop) (p : proto R) : Prop :=
  match p with
  | PDone _ => True
  | PNext c next => Q _ c /\ forall a, each Q (next a)
  end.
Definition receivable A (c : codec A) : Prop := wf c /\ delim c = SD /\ busy c = true.
Definition judged A (c : codec A) : Prop := usable c /\ faithful c /\ busy c = true.

(** The program with [decode_exact] (src/io.rs:30-52) and a new decoder for every message. *)
Fixpoint follow {R} (p : proto R) (fuel : nat) (r : Reader) : Reader * res R :=
  match p with
  | PDone x => (r, Ok x)
  | PNext c next =>
      match decode_exact (decoder c) fuel fuel (dec_fresh c) r with
      | (_, r', Ok a) => follow (next a) fuel r'
      | (_, r', y) => (r', rcast y)
      end
  end.

(** The program with one [ReadBuf] that is handed from one decoder to the next: in every turn of its loop
    [fill] (src/io.rs:202-225), [decode_from_read_buf] (src/io.rs:11-23) with the current decoder, and if that is
    idle now, [finish_decoding] and a new decoder for the next message.  [talk]: the protocol with the state of the current
    decoder.  [back] is what can still be read from the connection; each element of [plans] is what the connection answers in one turn.
    The result: the buffer and the rest of the connection, and how the loop has ended ([None]: it has not). *)
Inductive talk (R : Type) : Type :=
| TDone (x : R)
| TAt {A : Type} (c : codec A) (s : DS (sem c)) (next : A -> proto R).
Arguments TDone {R} x.
Arguments TAt {R A} c s next.
Definition enter {R} (p : proto R) : talk R :=
  match p with PDone x => TDone x | PNext c next => TAt c (dec_fresh c) next end.
Fixpoint converse {R} (fuel : nat) (plans : list (list RdPlan)) (rb : ReadBuf) (back : list byte) (t : talk R)
    : ReadBuf * list byte * option (res R) :=
  match t with
  | TDone x => (rb, back, Some (Ok x))
  | TAt c s next =>
      match plans with
      | [] => (rb, back, None)
      | plan :: plans' =>
          match rb_fill rb (mkReader back plan) with
          | (rb1, r1, Ok _) =>
              match decode_from_read_buf (decoder c) fuel s rb1 with
              | (s1, rb2, Ok _) =>
                  if dec_idle (decoder c) s1 then
                    match dec_finish (decoder c) s1 with
                    | (_, Ok a) => converse fuel plans' rb2 (rd_data r1) (enter (next a))
                    | (_, y) => (rb2, rd_data r1, Some (rcast y))
                    end
                  else converse fuel plans' rb2 (rd_data r1) (TAt c s1 next)
              | (_, rb2, y) => (rb2, rd_data r1, Some (rcast y))
              end
          | (rb1, r1, y) => (rb1, rd_data r1, Some (rcast y))
          end
      end
  end.

(** The other side: messages of different formats, each with a new encoder, written with [encode_all]
    (src/io.rs:95-105). *)
Definition message : Type := { A : Type & (codec A * A)%type }.
Fixpoint tell (fuel : nat) (ms : list message) (w : Writer) : Writer * res unit :=
  match ms with
  | [] => (w, Ok tt)
  | existT _ _ (c, a) :: ms' =>
      match enc_start (encoder c) fuel (enc_fresh c) a with
      | (s, Ok _) =>
          match encode_all (encoder c) fuel s w with
          | (_, w', Ok _) => tell fuel ms' w'
          | (_, w', y) => (w', y)
          end
      | (_, y) => (w, y)
      end
  end.
(** The messages belong to the run: each has the format that the protocol expects at that point. *)
Inductive tells {R} : proto R -> list message -> list (list byte) -> R -> Prop :=
| tells_done : forall x, tells (PDone x) [] [] x
| tells_next : forall A (c : codec A) next w a ms ws x,
    wire c w a -> tells (next a) ms ws x ->
    tells (PNext c next) (existT _ A (c, a) :: ms) (w :: ws) x.
