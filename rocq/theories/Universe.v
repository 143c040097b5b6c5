(** * The language of codecs: every term denotes a decoder, an encoder and a wire format.

    A term is a way a user nests the crate's combinators over its primitives.  The decoder and
    the encoder it denotes are built from the model of the code ([Prim], [Fixnum],
    [Utf8], [Comb], [Tuple]) and nothing else; the wire format is an independent description of
    the bytes. *)
From Verif Require Export NumSpec Utf8Spec Spec Prim Fixnum Utf8 Comb Tuple.
Set Implicit Arguments.

(** ** Numbers *)
Inductive unum :=
  NU8 | NU16be | NU16le | NU24be | NU24le | NU32be | NU32le | NU40be | NU40le
| NU48be | NU48le | NU56be | NU56le | NU64be | NU64le | NF32be | NF32le | NF64be | NF64le.
Inductive snum := NI8 | NI16be | NI16le | NI32be | NI32le | NI64be | NI64le.

Definition udec (k : unum) : Decoder NumDec N :=
  match k with
  | NU8 => U8Decoder
  | NU16be => U16beDecoder | NU16le => U16leDecoder
  | NU24be => U24beDecoder | NU24le => U24leDecoder
  | NU32be => U32beDecoder | NU32le => U32leDecoder
  | NU40be => U40beDecoder | NU40le => U40leDecoder
  | NU48be => U48beDecoder | NU48le => U48leDecoder
  | NU56be => U56beDecoder | NU56le => U56leDecoder
  | NU64be => U64beDecoder | NU64le => U64leDecoder
  | NF32be => F32beDecoder | NF32le => F32leDecoder
  | NF64be => F64beDecoder | NF64le => F64leDecoder
  end.
Definition uenc (k : unum) : Encoder NumEnc N :=
  match k with
  | NU8 => U8Encoder
  | NU16be => U16beEncoder | NU16le => U16leEncoder
  | NU24be => U24beEncoder | NU24le => U24leEncoder
  | NU32be => U32beEncoder | NU32le => U32leEncoder
  | NU40be => U40beEncoder | NU40le => U40leEncoder
  | NU48be => U48beEncoder | NU48le => U48leEncoder
  | NU56be => U56beEncoder | NU56le => U56leEncoder
  | NU64be => U64beEncoder | NU64le => U64leEncoder
  | NF32be => F32beEncoder | NF32le => F32leEncoder
  | NF64be => F64beEncoder | NF64le => F64leEncoder
  end.
(** The fresh decoders: the array sizes in src/fixnum.rs:75, 189, 216, 419, 448, 539, 566, 769, 798,
    893, 922, 1017, 1046, 1139, 1166, 1367, 1394, 1481, 1508. *)
Definition udec0 (k : unum) : NumDec :=
  match k with
  | NU8 => num_dec_new 1
  | NU16be => num_dec_new 2 | NU16le => num_dec_new 2
  | NU24be => num_dec_new 3 | NU24le => num_dec_new 3
  | NU32be => num_dec_new 4 | NU32le => num_dec_new 4
  | NU40be => num_dec_new 5 | NU40le => num_dec_new 5
  | NU48be => num_dec_new 6 | NU48le => num_dec_new 6
  | NU56be => num_dec_new 7 | NU56le => num_dec_new 7
  | NU64be => num_dec_new 8 | NU64le => num_dec_new 8
  | NF32be => num_dec_new 4 | NF32le => num_dec_new 4
  | NF64be => num_dec_new 8 | NF64le => num_dec_new 8
  end.
(** Specification: the number of bytes and the byte order. *)
Definition uwidth (k : unum) : nat :=
  match k with
  | NU8 => 1 | NU16be | NU16le => 2 | NU24be | NU24le => 3 | NU32be | NU32le => 4
  | NU40be | NU40le => 5 | NU48be | NU48le => 6 | NU56be | NU56le => 7 | NU64be | NU64le => 8
  | NF32be | NF32le => 4 | NF64be | NF64le => 8
  end.
Definition uvalue (k : unum) : list byte -> N :=
  match k with
  | NU8 | NU16be | NU24be | NU32be | NU40be | NU48be | NU56be | NU64be | NF32be | NF64be => be_value
  | _ => le_value
  end.
Definition sdec (k : snum) : Decoder NumDec Z :=
  match k with
  | NI8 => I8Decoder
  | NI16be => I16beDecoder | NI16le => I16leDecoder
  | NI32be => I32beDecoder | NI32le => I32leDecoder
  | NI64be => I64beDecoder | NI64le => I64leDecoder
  end.
Definition senc (k : snum) : Encoder NumEnc Z :=
  match k with
  | NI8 => I8Encoder
  | NI16be => I16beEncoder | NI16le => I16leEncoder
  | NI32be => I32beEncoder | NI32le => I32leEncoder
  | NI64be => I64beEncoder | NI64le => I64leEncoder
  end.
(** src/fixnum.rs:132, 303, 330, 653, 680, 1253, 1280. *)
Definition sdec0 (k : snum) : NumDec :=
  match k with
  | NI8 => num_dec_new 1
  | NI16be => num_dec_new 2 | NI16le => num_dec_new 2
  | NI32be => num_dec_new 4 | NI32le => num_dec_new 4
  | NI64be => num_dec_new 8 | NI64le => num_dec_new 8
  end.
Definition swidth (k : snum) : nat :=
  match k with NI8 => 1 | NI16be | NI16le => 2 | NI32be | NI32le => 4 | NI64be | NI64le => 8 end.
Definition svalue (k : snum) : list byte -> N :=
  match k with NI8 | NI16be | NI32be | NI64be => be_value | _ => le_value end.

(** ** Terms *)
Inductive codec : Type -> Type :=
(** primitives *)
| CU (k : unum) : codec N
| CS (k : snum) : codec Z
| CNull : codec unit
| CBytes (n : nat) : codec (list byte)          (** [CopyableBytesDecoder<[u8; n]>], [BytesEncoder] *)
| CBytesOnce (n : nat) : codec (list byte)      (** [BytesDecoder] *)
| CRest : codec (list byte)                     (** [RemainingBytesDecoder], [BytesEncoder] *)
| CUtf8Rest : codec (list N)                    (** [Utf8Decoder<RemainingBytesDecoder>], [Utf8Encoder] *)
| CUtf8 (n : nat) : codec (list N)              (** [Utf8Decoder<CopyableBytesDecoder<[u8; n]>>] *)
| CPad (b : byte) (n : nat) : codec unit        (** [PaddingDecoder::new(Some(b)).length(n)] *)
| CMono (A : Type) (f : MonoDecode A) (g : MonoEncode A) : codec A
(** combinators *)
| CTuple (A : Type) (p : parts A) : codec A     (** [TupleDecoder], [TupleEncoder] *)
| CMap (A B : Type) (f : A -> B) (g : B -> A) (c : codec A) : codec B   (** [map], [map_from] *)
| CTryMap (A B : Type) (f : A -> B + ErrorKind) (g : B -> A + ErrorKind) (c : codec A)
    : codec B                                   (** [try_map], [try_map_from] *)
| CMapErr (A : Type) (f g : ErrorKind -> ErrorKind) (c : codec A) : codec A
| COpt (A : Type) (omitted : bool) (c : codec A) : codec (option A)     (** [omit], [optional] *)
| CLen (A : Type) (n : N) (c : codec A) : codec A          (** [length(n)] on the decoder *)
| CLen2 (A : Type) (n : N) (c : codec A) : codec A         (** [length(n)] on both sides *)
| CMax (A : Type) (n : N) (c : codec A) : codec A          (** [max_bytes(n)] on both sides *)
| CPeek (A : Type) (c : codec A) : codec A                 (** [peekable] *)
| CMaybe (A : Type) (c : codec A) : codec A                (** [maybe_eos] *)
| CPre (A : Type) (c : codec A) : codec A                  (** [pre_encode] *)
| CSeq (A : Type) (c : codec A) : codec (list A)           (** [collect], [repeat] *)
| CSeqN (A : Type) (n : nat) (c : codec A) : codec (list A) (** [collectn(n)], [repeat] *)
(** dependent formats, by [and_then] on the decoder and a tuple on the encoder *)
| CPrefixed (A : Type) (k : unum) (size : A -> N) (c : codec A) : codec A
    (** a length prefix: [num.and_then(|n| dec.length(n))], [(num, enc)] *)
| CCounted (A : Type) (k : unum) (c : codec A) : codec (list A)
    (** a count prefix: [num.and_then(|n| dec.collectn(n))], [(num, enc.repeat())] *)
| CFlagged (A : Type) (k : unum) (c : codec A) : codec (option A)
    (** a presence flag: [num.and_then(|b| dec.omit(b == 0))], [(num, enc.optional())] *)
with parts : Type -> Type :=
| PTwo (A B : Type) (c : codec A) (c' : codec B) : parts (A * B)
| PSnoc (A B : Type) (p : parts A) (c : codec B) : parts (A * B).

(** ** What a term denotes in the model of the code *)
Record Sem (A : Type) := mkSem
  { DS : Type; sem_dec : Decoder DS A; dec0 : DS; ES : Type; sem_enc : Encoder ES A; enc0 : ES }.
Record PSem (A : Type) := mkPSem
  { PDS : Type; psem_dec : DecParts PDS A; pdec0 : PDS;
    PES : Type; psem_enc : EncParts PES A; penc0 : PES }.

Fixpoint sem {A} (c : codec A) : Sem A :=
  match c in codec A return Sem A with
  | CU k => mkSem (udec k) (udec0 k) (uenc k) num_enc_new
  | CS k => mkSem (sdec k) (sdec0 k) (senc k) num_enc_new
  | CNull => mkSem null_decoder tt null_encoder tt
  | CBytes n => mkSem (copy_decoder vec_box) (copy_dec_new (repeat x00 n))
                      (bytes_encoder vec_box) bytes_enc_new
  | CBytesOnce n => mkSem (bytes_decoder vec_box) (bytes_dec_new (repeat x00 n))
                          (bytes_encoder vec_box) bytes_enc_new
  | CRest => mkSem rem_decoder rem_dec_new (bytes_encoder vec_box) bytes_enc_new
  | CUtf8Rest => mkSem (utf8_decoder rem_decoder) rem_dec_new utf8_encoder utf8_enc_new
  | CUtf8 n => mkSem (utf8_decoder (copy_decoder vec_box)) (copy_dec_new (repeat x00 n))
                     utf8_encoder utf8_enc_new
  | CPad b n => mkSem (length_decoder pad_decoder) (length_new (pad_dec_new (Some b)) (N.of_nat n))
                      (map_from_encoder (length_encoder pad_encoder) (fun _ : unit => b))
                      (length_new None (N.of_nat n))
  | CMono f g => mkSem (mono_decoder f) mono_dec_new (mono_encoder g) mono_enc_new
  | CTuple p => let s := psem p in
      mkSem (tuple_of_dec_parts (psem_dec s)) (pdec0 s) (tuple_of_enc_parts (psem_enc s)) (penc0 s)
  | CMap f g c => let s := sem c in
      mkSem (map_decoder (sem_dec s) f) (dec0 s) (map_from_encoder (sem_enc s) g) (enc0 s)
  | CTryMap f g c => let s := sem c in
      mkSem (try_map_decoder (sem_dec s) f) (dec0 s) (try_map_from_encoder (sem_enc s) g) (enc0 s)
  | CMapErr f g c => let s := sem c in
      mkSem (map_err_decoder (sem_dec s) f) (dec0 s) (map_err_encoder (sem_enc s) g) (enc0 s)
  | COpt b c => let s := sem c in
      mkSem (omit_decoder (sem_dec s)) (mkOmit (dec0 s) b) (optional_encoder (sem_enc s)) (enc0 s)
  | CLen n c => let s := sem c in
      mkSem (length_decoder (sem_dec s)) (length_new (dec0 s) n) (sem_enc s) (enc0 s)
  | CLen2 n c => let s := sem c in
      mkSem (length_decoder (sem_dec s)) (length_new (dec0 s) n)
            (length_encoder (sem_enc s)) (length_new (enc0 s) n)
  | CMax n c => let s := sem c in
      mkSem (max_decoder (sem_dec s)) (max_new (dec0 s) n)
            (max_encoder (sem_enc s)) (max_new (enc0 s) n)
  | CPeek c => let s := sem c in
      mkSem (peek_decoder (sem_dec s)) (peek_new (dec0 s)) (sem_enc s) (enc0 s)
  | CMaybe c => let s := sem c in
      mkSem (maybe_decoder (sem_dec s)) (maybe_new (dec0 s)) (sem_enc s) (enc0 s)
  | CPre c => let s := sem c in
      mkSem (sem_dec s) (dec0 s) (pre_encoder (sem_enc s)) (pre_new (enc0 s))
  | CSeq c => let s := sem c in
      mkSem (collect_decoder (sem_dec s)) (collect_new (dec0 s))
            (repeat_encoder (sem_enc s)) (repeat_new (enc0 s))
  | CSeqN n c => let s := sem c in
      mkSem (collectn_decoder (sem_dec s)) (collectn_new (dec0 s) n)
            (repeat_encoder (sem_enc s)) (repeat_new (enc0 s))
  | CPrefixed k size c => let s := sem c in
      mkSem (and_then_decoder (udec k) (length_decoder (sem_dec s)) (length_new (dec0 s)))
            (and_then_new (udec0 k))
            (map_from_encoder (tuple2_encoder (uenc k) (sem_enc s)) (fun a => (size a, a)))
            (num_enc_new, enc0 s)
  | CCounted k c => let s := sem c in
      mkSem (and_then_decoder (udec k) (collectn_decoder (sem_dec s))
               (fun n => collectn_new (dec0 s) (N.to_nat n)))
            (and_then_new (udec0 k))
            (map_from_encoder (tuple2_encoder (uenc k) (repeat_encoder (sem_enc s)))
               (fun l => (N.of_nat (length l), l)))
            (num_enc_new, repeat_new (enc0 s))
  | CFlagged k c => let s := sem c in
      mkSem (and_then_decoder (udec k) (omit_decoder (sem_dec s))
               (fun n => mkOmit (dec0 s) (n =? 0)%N))
            (and_then_new (udec0 k))
            (map_from_encoder (tuple2_encoder (uenc k) (optional_encoder (sem_enc s)))
               (fun o => (match o with Some _ => 1%N | None => 0%N end, o)))
            (num_enc_new, enc0 s)
  end
with psem {A} (p : parts A) : PSem A :=
  match p in parts A return PSem A with
  | PTwo c c' => let s := sem c in let t := sem c' in
      mkPSem (dp_snoc (dp_one (sem_dec s)) (sem_dec t)) (dec0 s, dec0 t)
             (ep_snoc (ep_one (sem_enc s)) (sem_enc t)) (enc0 s, enc0 t)
  | PSnoc p c => let s := psem p in let t := sem c in
      mkPSem (dp_snoc (psem_dec s) (sem_dec t)) (pdec0 s, dec0 t)
             (ep_snoc (psem_enc s) (sem_enc t)) (penc0 s, enc0 t)
  end.

(** The decoder and the encoder as the user gets them from [new]/[default]. *)
Definition decoder {A} (c : codec A) : Decoder (DS (sem c)) A := sem_dec (sem c).
Definition encoder {A} (c : codec A) : Encoder (ES (sem c)) A := sem_enc (sem c).
Definition dec_fresh {A} (c : codec A) : DS (sem c) := dec0 (sem c).
Definition enc_fresh {A} (c : codec A) : ES (sem c) := enc0 (sem c).

(** ** Wire formats *)

(** The sizes of real buffers: [isize::MAX] is the largest size of a Rust object. *)
Definition fits (w : list byte) : Prop := (len w <= isize_max)%N.
Definition num_bytes (k : unum) (n : N) (w : list byte) : Prop :=
  length w = uwidth k /\ uvalue k w = n.
Definition sequence_of {A} (fmt : format A) (w : list byte) (l : list A) : Prop :=
  exists ws, w = concat ws /\ Forall2 fmt ws l.

(** How the item of a term is delimited. *)
Fixpoint delim {A} (c : codec A) : mode :=
  match c with
  | CU _ | CS _ | CNull | CBytes _ | CBytesOnce _ | CUtf8 _ | CPad _ _ => SD
  | CRest | CUtf8Rest | CMono _ _ => ToEos
  | CTuple p => pdelim p
  | CMap _ _ c => delim c
  | CTryMap _ _ c => delim c
  | CMapErr _ _ c => delim c
  | COpt b c => if b then SD else delim c
  | CLen _ _ | CLen2 _ _ => SD
  | CMax _ c => match delim c with SD => Exact | m => m end
  | CPeek c => delim c
  | CMaybe c => delim c
  | CPre c => delim c
  | CSeq _ => ToEos
  | CSeqN _ _ => SD
  | CPrefixed _ _ _ => SD
  | CCounted _ _ => SD
  | CFlagged _ c => delim c
  end
with pdelim {A} (p : parts A) : mode :=
  match p with
  | PTwo _ c => delim c
  | PSnoc _ c => delim c
  end.

(** What the decoder of a term reads: which byte strings mean which items. *)
Fixpoint reads {A} (c : codec A) : format A :=
  match c in codec A return format A with
  | CU k => fun w n => num_bytes k n w
  | CS k => fun w z => length w = swidth k /\ twos_complement (swidth k) z (svalue k w)
  | CNull => fun w _ => w = []
  | CBytes n => fun w b => w = b /\ length b = n /\ fits w
  | CBytesOnce n => fun w b => w = b /\ length b = n /\ fits w
  | CRest => fun w b => w = b /\ fits w
  | CUtf8Rest => fun w s => utf8 s w /\ fits w
  | CUtf8 n => fun w s => utf8 s w /\ length w = n /\ fits w
  | CPad b n => fun w _ => w = repeat b n /\ fits w
  | CMono f g => fun w a => f w = (inl a, length w) /\ fits w
  | CTuple p => preads p
  | CMap f g c => fun w b => exists a, reads c w a /\ f a = b
  | CTryMap f g c => fun w b => exists a, reads c w a /\ f a = inl b
  | CMapErr _ _ c => reads c
  | COpt omitted c => fun w o =>
      match o with
      | None => omitted = true /\ w = []
      | Some a => omitted = false /\ reads c w a
      end
  | CLen n c => fun w a => reads c w a /\ len w = n
  | CLen2 n c => fun w a => reads c w a /\ len w = n
  | CMax n c => fun w a => reads c w a /\ (len w <= n)%N
  | CPeek c => reads c
  | CMaybe c => fun w a => reads c w a /\ (delim c = ToEos -> w <> [])
  | CPre c => reads c
  | CSeq c => fun w l => fits w /\ sequence_of (reads c) w l
  | CSeqN n c => fun w l => fits w /\ sequence_of (reads c) w l /\ length l = n
  | CPrefixed k size c => fun w a => fits w /\
      exists w0 w1, w = w0 ++ w1 /\ num_bytes k (len w1) w0 /\ reads c w1 a
  | CCounted k c => fun w l => fits w /\
      exists w0 w1, w = w0 ++ w1 /\ num_bytes k (N.of_nat (length l)) w0 /\
                    sequence_of (reads c) w1 l
  | CFlagged k c => fun w o => fits w /\
      exists w0 w1 n, w = w0 ++ w1 /\ num_bytes k n w0 /\
        match o with
        | None => n = 0%N /\ w1 = []
        | Some a => n <> 0%N /\ reads c w1 a
        end
  end
with preads {A} (p : parts A) : format A :=
  match p in parts A return format A with
  | PTwo c c' => fun w i => fits w /\
      exists w0 w1, w = w0 ++ w1 /\ reads c w0 (fst i) /\ reads c' w1 (snd i)
  | PSnoc p c => fun w i => fits w /\
      exists w0 w1, w = w0 ++ w1 /\ preads p w0 (fst i) /\ reads c w1 (snd i)
  end.

(** What the encoder of a term writes, for the items that survive the round trip: the functions
    given to [map]/[try_map] and [map_from]/[try_map_from] are inverse on the item, and the size
    given to a length-prefixed format is the size of the body. *)
Fixpoint wire {A} (c : codec A) : format A :=
  match c in codec A return format A with
  | CU k => fun w n => num_bytes k n w
  | CS k => fun w z => length w = swidth k /\ twos_complement (swidth k) z (svalue k w)
  | CNull => fun w _ => w = []
  | CBytes n => fun w b => w = b /\ length b = n /\ fits w
  | CBytesOnce n => fun w b => w = b /\ length b = n /\ fits w
  | CRest => fun w b => w = b /\ fits w
  | CUtf8Rest => fun w s => utf8 s w /\ fits w
  | CUtf8 n => fun w s => utf8 s w /\ length w = n /\ fits w
  | CPad b n => fun w _ => w = repeat b n /\ fits w
  | CMono f g => fun w a => f w = (inl a, length w) /\ fits w /\
                            exists chunks, g a = (chunks, None) /\ w = concat chunks
  | CTuple p => pwire p
  | CMap f g c => fun w b => wire c w (g b) /\ f (g b) = b
  | CTryMap f g c => fun w b => exists a, g b = inl a /\ f a = inl b /\ wire c w a
  | CMapErr _ _ c => wire c
  | COpt omitted c => fun w o =>
      match o with
      | None => omitted = true /\ w = []
      | Some a => omitted = false /\ wire c w a
      end
  | CLen n c => fun w a => wire c w a /\ len w = n
  | CLen2 n c => fun w a => wire c w a /\ len w = n
  | CMax n c => fun w a => wire c w a /\ (len w <= n)%N
  | CPeek c => wire c
  | CMaybe c => fun w a => wire c w a /\ (delim c = ToEos -> w <> [])
  | CPre c => wire c
  | CSeq c => fun w l => fits w /\ sequence_of (wire c) w l
  | CSeqN n c => fun w l => fits w /\ sequence_of (wire c) w l /\ length l = n
  | CPrefixed k size c => fun w a => fits w /\
      exists w0 w1, w = w0 ++ w1 /\ wire c w1 a /\ len w1 = size a /\ num_bytes k (len w1) w0
  | CCounted k c => fun w l => fits w /\
      exists w0 w1, w = w0 ++ w1 /\ sequence_of (wire c) w1 l /\
                    num_bytes k (N.of_nat (length l)) w0
  | CFlagged k c => fun w o => fits w /\
      exists w0 w1, w = w0 ++ w1 /\
        match o with
        | None => num_bytes k 0 w0 /\ w1 = []
        | Some a => num_bytes k 1 w0 /\ wire c w1 a
        end
  end
with pwire {A} (p : parts A) : format A :=
  match p in parts A return format A with
  | PTwo c c' => fun w i => fits w /\
      exists w0 w1, w = w0 ++ w1 /\ wire c w0 (fst i) /\ wire c' w1 (snd i)
  | PSnoc p c => fun w i => fits w /\
      exists w0 w1, w = w0 ++ w1 /\ pwire p w0 (fst i) /\ wire c w1 (snd i)
  end.

(** ** Well-formed terms *)

(** The decoder can be used again after [finish_decoding]. *)
Fixpoint dec_again {A} (c : codec A) : bool :=
  match c with
  | CBytesOnce _ => false
  | CTuple p => pdec_again p
  | CMap _ _ c => dec_again c
  | CTryMap _ _ c => dec_again c
  | CMapErr _ _ c => dec_again c
  | COpt b c => b || dec_again c
  | CLen _ c => dec_again c
  | CLen2 _ c => dec_again c
  | CMax _ c => dec_again c
  | CPeek c => dec_again c
  | CMaybe c => dec_again c
  | CPre c => dec_again c
  | CSeq _ => true
  | CSeqN _ _ => false
  | _ => true
  end
with pdec_again {A} (p : parts A) : bool :=
  match p with
  | PTwo c c' => dec_again c && dec_again c'
  | PSnoc p c => pdec_again p && dec_again c
  end.
(** The encoder can be used again after it has become idle. *)
Fixpoint enc_again {A} (c : codec A) : bool :=
  match c with
  | CPad _ _ => false
  | CTuple p => penc_again p
  | CMap _ _ c => enc_again c
  | CTryMap _ _ c => enc_again c
  | CMapErr _ _ c => enc_again c
  | COpt _ c => enc_again c
  | CLen _ c => enc_again c
  | CLen2 _ _ => false
  | CMax _ c => enc_again c
  | CPeek c => enc_again c
  | CMaybe c => enc_again c
  | CPre c => enc_again c
  | CPrefixed _ _ c => enc_again c
  | _ => true
  end
with penc_again {A} (p : parts A) : bool :=
  match p with
  | PTwo c c' => enc_again c && enc_again c'
  | PSnoc p c => penc_again p && enc_again c
  end.
(** Every item takes at least one byte. *)
Fixpoint nonempty {A} (c : codec A) : bool :=
  match c with
  | CU _ | CS _ => true
  | CNull => false
  | CBytes n => negb (n =? 0)%nat
  | CBytesOnce n => negb (n =? 0)%nat
  | CRest | CUtf8Rest | CMono _ _ => false
  | CUtf8 n => negb (n =? 0)%nat
  | CPad _ n => negb (n =? 0)%nat
  | CTuple p => pnonempty p
  | CMap _ _ c => nonempty c
  | CTryMap _ _ c => nonempty c
  | CMapErr _ _ c => nonempty c
  | COpt b c => negb b && nonempty c
  | CLen n c => nonempty c || negb (n =? 0)%N
  | CLen2 n c => nonempty c || negb (n =? 0)%N
  | CMax _ c => nonempty c
  | CPeek c => nonempty c
  | CMaybe c => nonempty c || match delim c with ToEos => true | _ => false end
  | CPre c => nonempty c
  | CSeq _ => false
  | CSeqN n c => negb (n =? 0)%nat && nonempty c
  | CPrefixed _ _ _ | CCounted _ _ | CFlagged _ _ => true
  end
with pnonempty {A} (p : parts A) : bool :=
  match p with
  | PTwo c c' => nonempty c || nonempty c'
  | PSnoc p c => pnonempty p || nonempty c
  end.
(** A fresh decoder is not idle. *)
Fixpoint busy {A} (c : codec A) : bool :=
  match c with
  | CU _ | CS _ => true
  | CNull => false
  | CBytes n => negb (n =? 0)%nat
  | CBytesOnce n => negb (n =? 0)%nat
  | CRest | CUtf8Rest | CMono _ _ => true
  | CUtf8 n => negb (n =? 0)%nat
  | CPad _ _ => true
  | CTuple p => pbusy p
  | CMap _ _ c => busy c
  | CTryMap _ _ c => busy c
  | CMapErr _ _ c => busy c
  | COpt b c => negb b && busy c
  | CLen _ c => busy c
  | CLen2 _ c => busy c
  | CMax _ c => busy c
  | CPeek _ => true
  | CMaybe c => busy c
  | CPre c => busy c
  | CSeq _ => true
  | CSeqN n _ => negb (n =? 0)%nat
  | CPrefixed _ _ _ | CCounted _ _ | CFlagged _ _ => true
  end
with pbusy {A} (p : parts A) : bool :=
  match p with
  | PTwo c c' => busy c || busy c'
  | PSnoc p c => pbusy p || busy c
  end.

(** The terms whose parts fit together:
    - only the last component of a tuple may depend on the end of the stream;
    - repeated items are self-delimiting, take at least one byte, and their codecs are reusable;
    - [peekable] wraps a decoder that has something to decode;
    - the bound of [max_bytes] is a [u64], and [length] of an encoder is not 0. *)
Fixpoint wf {A} (c : codec A) : Prop :=
  match c with
  | CU _ | CS _ | CNull | CRest | CUtf8Rest | CMono _ _ => True
  | CBytes n | CBytesOnce n | CUtf8 n => (N.of_nat n <= isize_max)%N
  | CPad _ n => (0 < n)%nat /\ (N.of_nat n <= isize_max)%N
  | CTuple p => pwf p
  | CMap _ _ c => wf c
  | CTryMap _ _ c => wf c
  | CMapErr _ _ c => wf c
  | COpt _ c => wf c /\ enc_again c = true
  | CLen _ c => wf c
  | CLen2 n c => wf c /\ enc_again c = true /\ (0 < n)%N
  | CMax n c => wf c /\ (n <= u64_max)%N
  | CPeek c => wf c /\ busy c = true
  | CMaybe c => wf c
  | CPre c => wf c /\ enc_again c = true
  | CSeq c => wf c /\ delim c = SD /\ nonempty c = true /\ dec_again c = true /\
              enc_again c = true /\ exists w a, reads c w a
  | CSeqN _ c => wf c /\ delim c = SD /\ nonempty c = true /\ dec_again c = true /\
                 enc_again c = true
  | CPrefixed _ _ c => wf c
  | CCounted _ c => wf c /\ delim c = SD /\ nonempty c = true /\ dec_again c = true /\
                    enc_again c = true
  | CFlagged _ c => wf c /\ enc_again c = true /\ delim c <> ToEos
  end
with pwf {A} (p : parts A) : Prop :=
  match p with
  | PTwo c c' => wf c /\ wf c' /\ delim c = SD
  | PSnoc p c => pwf p /\ wf c /\ pdelim p = SD
  end.
