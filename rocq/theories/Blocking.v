(** * A server over blocking I/O: specification of C104.

    A program that reads requests with [decode_exact] and answers each with [start_encoding] and [encode_all].  The program itself is
    not part of the repository; the calls it makes are. *)
From Verif Require Export Sound Writes.
Set Implicit Arguments.

(** What the server answers to a list of requests, from the state [q] on. *)
Fixpoint answers {Q A B} (serve : Q -> A -> Q * B) (q : Q) (reqs : list A) : list B :=
  match reqs with
  | [] => []
  | i :: reqs' => snd (serve q i) :: answers serve (fst (serve q i)) reqs'
  end.

(** [k] requests, with one decoder and one encoder:
<<
    for _ in 0..k {
        let request = decoder.decode_exact(&mut stream)?;     // src/io.rs:30-52
        encoder.start_encoding(serve(request))?;
        encoder.encode_all(&mut stream)?;                      // src/io.rs:95-105
    }
>>
    It stops at the first error. *)
Fixpoint server {Q S T I J} (serve : Q -> I -> Q * J) (D : Decoder S I) (E : Encoder T J) (k fuel : nat) (q : Q) (s : S) (t : T)
    (r : Reader) (w : Writer) : S * T * Reader * Writer * res unit :=
  match k with
  | 0 => (s, t, r, w, Ok tt)
  | Datatypes.S k' =>
      match decode_exact D fuel fuel s r with
      | (s', r', Ok i) =>
          match enc_start E fuel t (snd (serve q i)) with
          | (t1, Ok _) =>
              match encode_all E fuel t1 w with
              | (t', w', Ok _) => server serve D E k' fuel (fst (serve q i)) s' t' r' w'
              | (t', w', x) => (s', t', r', w', rcast x)
              end
          | (t1, x) => (s', t1, r', w, rcast x)
          end
      | (s', r', x) => (s', t, r', w, rcast x)
      end
  end.
