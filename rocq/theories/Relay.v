(** * A relay: specification.

    A program that reads messages with [decode_exact] and passes each one on with [start_encoding]
    and [encode_all].  The program itself is not part of the repository; the calls it makes are. *)
From Verif Require Export Sound Writes.
Set Implicit Arguments.

(** Formats without two encodings of one item: the functions given to [try_map_from] and [map_from]
    undo those given to [try_map] and [map], the size written in front of a body is its size, and what
    a [MonolithicDecode] accepts is what the [MonolithicEncode] writes.  A presence flag is not such a
    format: every number but zero means "present". *)
Fixpoint canonical {A} (c : codec A) : Prop :=
  match c with
  | CU _ | CS _ | CNull | CBytes _ | CBytesOnce _ | CRest | CUtf8Rest | CUtf8 _ | CPad _ _ => True
  | CMono f g => forall w a, f w = (inl a, length w) ->
                 exists chunks, g a = (chunks, None) /\ w = concat chunks
  | CTuple p => pcanonical p
  | CMap f g c => canonical c /\ forall w a, reads c w a -> g (f a) = a
  | CTryMap f g c => canonical c /\ forall w a b, reads c w a -> f a = inl b -> g b = inl a
  | CMapErr _ _ c => canonical c
  | COpt _ c => canonical c
  | CLen _ c => canonical c
  | CLen2 _ c => canonical c
  | CMax _ c => canonical c
  | CPeek c => canonical c
  | CMaybe c => canonical c
  | CPre c => canonical c
  | CSeq c => canonical c
  | CSeqN _ c => canonical c
  | CPrefixed _ size c => canonical c /\ forall w a, reads c w a -> size a = len w
  | CCounted _ c => canonical c
  | CFlagged _ _ => False
  end
with pcanonical {A} (p : parts A) : Prop :=
  match p with
  | PTwo c c' => canonical c /\ canonical c'
  | PSnoc p c => pcanonical p /\ canonical c
  end.

(** [k] messages, with one decoder and one encoder.  The program stops at the first error.  Result: the
    reader and the writer afterwards, and how it ended. *)
Fixpoint relay {S T I} (D : Decoder S I) (E : Encoder T I) (k fuel : nat) (s : S) (t : T)
    (r : Reader) (w : Writer) : S * T * Reader * Writer * res unit :=
  match k with
  | 0 => (s, t, r, w, Ok tt)
  | Datatypes.S k' =>
      match decode_exact D fuel fuel s r with
      | (s', r', Ok i) =>
          match enc_start E fuel t i with
          | (t1, Ok _) =>
              match encode_all E fuel t1 w with
              | (t', w', Ok _) => relay D E k' fuel s' t' r' w'
              | (t', w', x) => (s', t', r', w', rcast x)
              end
          | (t1, x) => (s', t1, r', w, rcast x)
          end
      | (s', r', x) => (s', t, r', w, rcast x)
      end
  end.
