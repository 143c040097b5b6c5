(** * Specification for C76: which errors a call can return.

    The documentation of the traits (src/decode.rs:14-84, src/encode.rs:18-62) lists the kinds of
    error of each method in general terms.  The tables below say, for every composition, which
    kinds each method can return and when; [k] is the kind, [e] is the [eos] argument. *)
From Verif Require Export Universe.
Set Implicit Arguments.

Definition eof (e : Eos) (k : ErrorKind) : Prop := k = UnexpectedEos /\ is_reached e = true.

(** [finish_decoding] of a decoder that is idle. *)
Fixpoint finish_kinds {A} (c : codec A) (k : ErrorKind) : Prop :=
  match c with
  | CU _ | CS _ | CNull | CBytes _ | CRest | CMono _ _ => False
  | CBytesOnce _ => k = DecoderTerminated
  | CUtf8Rest | CUtf8 _ => k = InvalidInput
  | CPad _ _ => k = IncompleteDecoding
  | CTuple p => pfinish_kinds p k
  | CMap _ _ c => finish_kinds c k
  | CTryMap f _ c => finish_kinds c k \/ exists a, f a = inr k
  | CMapErr f _ c => exists k0, finish_kinds c k0 /\ k = f k0
  | COpt _ c => finish_kinds c k
  | CLen _ c => k = IncompleteDecoding \/ finish_kinds c k
  | CLen2 _ c => k = IncompleteDecoding \/ finish_kinds c k
  | CMax _ c => finish_kinds c k
  | CPeek _ | CSeq _ | CSeqN _ _ | CCounted _ _ => False
  | CMaybe c => finish_kinds c k
  | CPre c => finish_kinds c k
  | CPrefixed _ _ c => k = IncompleteDecoding \/ finish_kinds c k
  | CFlagged _ c => finish_kinds c k
  end
with pfinish_kinds {A} (p : parts A) (k : ErrorKind) : Prop :=
  match p with
  | PTwo c c' => finish_kinds c k \/ finish_kinds c' k
  | PSnoc p c => pfinish_kinds p k \/ finish_kinds c k
  end.

(** [finish_decoding] in any state. *)
Fixpoint early_kinds {A} (c : codec A) (k : ErrorKind) : Prop :=
  match c with
  | CNull => False
  | CU _ | CS _ | CBytes _ | CRest | CMono _ _ => k = IncompleteDecoding
  | CBytesOnce _ => k = DecoderTerminated \/ k = IncompleteDecoding
  | CUtf8Rest | CUtf8 _ => k = InvalidInput \/ k = IncompleteDecoding
  | CPad _ _ => k = IncompleteDecoding
  | CTuple p => pearly_kinds p k
  | CMap _ _ c => early_kinds c k
  | CTryMap f _ c => early_kinds c k \/ exists a, f a = inr k
  | CMapErr f _ c => exists k0, early_kinds c k0 /\ k = f k0
  | COpt _ c => early_kinds c k
  | CLen _ c => k = IncompleteDecoding \/ early_kinds c k
  | CLen2 _ c => k = IncompleteDecoding \/ early_kinds c k
  | CMax _ c => early_kinds c k
  | CPeek _ | CSeq _ | CSeqN _ _ => k = IncompleteDecoding
  | CMaybe c => early_kinds c k
  | CPre c => early_kinds c k
  | CPrefixed _ _ c => k = IncompleteDecoding \/ early_kinds c k
  | CCounted _ _ => k = IncompleteDecoding
  | CFlagged _ c => k = IncompleteDecoding \/ early_kinds c k
  end
with pearly_kinds {A} (p : parts A) (k : ErrorKind) : Prop :=
  match p with
  | PTwo c c' => early_kinds c k \/ early_kinds c' k
  | PSnoc p c => pearly_kinds p k \/ early_kinds c k
  end.

(** [decode] in any state.  Inside [length] the inner decoder sees another end of the stream. *)
Fixpoint decode_kinds {A} (c : codec A) (e : Eos) (k : ErrorKind) : Prop :=
  match c with
  | CNull | CRest | CUtf8Rest => False
  | CU _ | CS _ | CBytes _ | CUtf8 _ => eof e k
  | CBytesOnce _ => k = DecoderTerminated \/ eof e k
  | CPad _ _ => k = InvalidInput \/ (k = UnexpectedEos /\ exists r, remaining_bytes e = Finite r)
  | CMono f _ => is_reached e = true /\ exists w n, f w = (inr k, n)
  | CTuple p => pdecode_kinds p e k
  | CMap _ _ c => decode_kinds c e k
  | CTryMap _ _ c => decode_kinds c e k
  | CMapErr f _ c => exists k0, decode_kinds c e k0 /\ k = f k0
  | COpt _ c => decode_kinds c e k
  | CLen _ c => (k = UnexpectedEos /\ exists r, remaining_bytes e = Finite r) \/
                exists r, decode_kinds c (eos_with_remaining (Finite r)) k
  | CLen2 _ c => (k = UnexpectedEos /\ exists r, remaining_bytes e = Finite r) \/
                 exists r, decode_kinds c (eos_with_remaining (Finite r)) k
  | CMax _ c => k = InvalidInput \/ decode_kinds c e k
  | CPeek c => decode_kinds c e k \/ finish_kinds c k
  | CMaybe c => decode_kinds c e k \/ decode_kinds c (eos_new false) k
  | CPre c => decode_kinds c e k
  | CSeq c => decode_kinds c e k \/ finish_kinds c k
  | CSeqN _ c => eof e k \/ decode_kinds c e k \/ finish_kinds c k
  | CPrefixed _ _ c => eof e k \/ (k = UnexpectedEos /\ exists r, remaining_bytes e = Finite r) \/
                       exists r, decode_kinds c (eos_with_remaining (Finite r)) k
  | CCounted _ c => eof e k \/ decode_kinds c e k \/ finish_kinds c k
  | CFlagged _ c => eof e k \/ decode_kinds c e k
  end
with pdecode_kinds {A} (p : parts A) (e : Eos) (k : ErrorKind) : Prop :=
  match p with
  | PTwo c c' => decode_kinds c e k \/ decode_kinds c' e k
  | PSnoc p c => pdecode_kinds p e k \/ decode_kinds c e k
  end.

(** ** Encoders *)

(** The numbers that do not use all the bits of their Rust type. *)
Definition narrow (n : unum) : bool :=
  match n with
  | NU24be | NU24le | NU40be | NU40le | NU48be | NU48le | NU56be | NU56le => true
  | _ => false
  end.
Definition range_error (n : unum) (k : ErrorKind) : Prop := narrow n = true /\ k = InvalidInput.

(** [encode] of an encoder that was made by [new] or [default] and then used in any way;
    [start_encoding] of one that is idle; and [start_encoding] in any state. *)
Fixpoint encode_kinds {A} (c : codec A) (e : Eos) (k : ErrorKind) : Prop :=
  match c with
  | CNull => False
  | CU _ | CS _ | CBytes _ | CBytesOnce _ | CRest | CUtf8Rest | CUtf8 _ => eof e k
  | CPad _ _ => eof e k \/ k = InvalidInput
  | CMono _ g => eof e k \/ exists a chunks, g a = (chunks, Some k)
  | CTuple p => pencode_kinds p e k
  | CMap _ _ c => encode_kinds c e k
  | CTryMap _ _ c => encode_kinds c e k
  | CMapErr _ g c => exists k0, encode_kinds c e k0 /\ k = g k0
  | COpt _ c => encode_kinds c e k
  | CLen _ c => encode_kinds c e k
  | CLen2 _ c => eof e k \/ k = InvalidInput \/ encode_kinds c e k \/ encode_kinds c (eos_new true) k
  | CMax _ c => k = InvalidInput \/ encode_kinds c e k
  | CPeek c => encode_kinds c e k
  | CMaybe c => encode_kinds c e k
  | CPre _ => eof e k
  | CSeq c => encode_kinds c e k \/ idle_start_kinds c k
  | CSeqN _ c => encode_kinds c e k \/ idle_start_kinds c k
  | CPrefixed _ _ c => eof e k \/ encode_kinds c e k
  | CCounted _ c => eof e k \/ encode_kinds c e k \/ idle_start_kinds c k
  | CFlagged _ c => eof e k \/ encode_kinds c e k
  end
with pencode_kinds {A} (p : parts A) (e : Eos) (k : ErrorKind) : Prop :=
  match p with
  | PTwo c c' => encode_kinds c e k \/ encode_kinds c' e k
  | PSnoc p c => pencode_kinds p e k \/ encode_kinds c e k
  end
with idle_start_kinds {A} (c : codec A) (k : ErrorKind) : Prop :=
  match c with
  | CNull | CS _ | CBytes _ | CBytesOnce _ | CRest | CUtf8Rest | CUtf8 _ | CMono _ _ => False
  | CU n => range_error n k
  | CPad _ _ => k = EncoderFull
  | CTuple p => pidle_start_kinds p k
  | CMap _ _ c => idle_start_kinds c k
  | CTryMap _ g c => idle_start_kinds c k \/ exists b, g b = inr k
  | CMapErr _ g c => exists k0, idle_start_kinds c k0 /\ k = g k0
  | COpt _ c => idle_start_kinds c k
  | CLen _ c => idle_start_kinds c k
  | CLen2 _ c => k = EncoderFull \/ start_kinds c k
  | CMax _ c => idle_start_kinds c k
  | CPeek c => idle_start_kinds c k
  | CMaybe c => idle_start_kinds c k
  | CPre c => k = InvalidInput \/ k = InconsistentState \/ k = Other \/ start_kinds c k \/
              exists b, encode_kinds c (eos_new b) k
  | CSeq _ | CSeqN _ _ => False
  | CPrefixed n _ c => range_error n k \/ idle_start_kinds c k
  | CCounted n _ => range_error n k
  | CFlagged n c => range_error n k \/ idle_start_kinds c k
  end
with pidle_start_kinds {A} (p : parts A) (k : ErrorKind) : Prop :=
  match p with
  | PTwo c c' => idle_start_kinds c k \/ idle_start_kinds c' k
  | PSnoc p c => pidle_start_kinds p k \/ idle_start_kinds c k
  end
with start_kinds {A} (c : codec A) (k : ErrorKind) : Prop :=
  match c with
  | CNull => False
  | CS _ | CBytes _ | CBytesOnce _ | CRest | CUtf8Rest | CUtf8 _ | CMono _ _ | CPad _ _ =>
      k = EncoderFull
  | CU n => k = EncoderFull \/ range_error n k
  | CTuple p => pstart_kinds p k
  | CMap _ _ c => start_kinds c k
  | CTryMap _ g c => start_kinds c k \/ exists b, g b = inr k
  | CMapErr _ g c => exists k0, start_kinds c k0 /\ k = g k0
  | COpt _ c => start_kinds c k
  | CLen _ c => start_kinds c k
  | CLen2 _ c => k = EncoderFull \/ start_kinds c k
  | CMax _ c => start_kinds c k
  | CPeek c => start_kinds c k
  | CMaybe c => start_kinds c k
  | CPre c => k = EncoderFull \/ k = InvalidInput \/ k = InconsistentState \/ k = Other \/
              start_kinds c k \/ exists b, encode_kinds c (eos_new b) k
  | CSeq _ | CSeqN _ _ => k = EncoderFull
  | CPrefixed n _ c => k = EncoderFull \/ range_error n k \/ start_kinds c k
  | CCounted n _ => k = EncoderFull \/ range_error n k
  | CFlagged n c => k = EncoderFull \/ range_error n k \/ start_kinds c k
  end
with pstart_kinds {A} (p : parts A) (k : ErrorKind) : Prop :=
  match p with
  | PTwo c c' => start_kinds c k \/ start_kinds c' k
  | PSnoc p c => pstart_kinds p k \/ start_kinds c k
  end.

(** The states of an encoder after any calls, successful or not. *)
Inductive handled {S I} (E : Encoder S I) (s : S) : S -> Prop :=
| handled_not : handled E s s
| handled_start fuel s1 i s2 r : handled E s s1 -> enc_start E fuel s1 i = (s2, r) -> handled E s s2
| handled_encode fuel s1 buf e s2 buf' r :
    handled E s s1 -> enc_encode E fuel s1 buf e = (s2, buf', r) -> handled E s s2.

(** ** In short: an error is the user's own, or it has one of the causes below *)

(** [k] is returned by one of the functions given to [map_err], [try_map] and monolithic decoders. *)
Fixpoint dec_user {A} (c : codec A) (k : ErrorKind) : Prop :=
  match c with
  | CMono f _ => exists w n, f w = (inr k, n)
  | CTuple p => pdec_user p k
  | CMap _ _ c => dec_user c k
  | CTryMap f _ c => dec_user c k \/ exists a, f a = inr k
  | CMapErr f _ c => exists k0, k = f k0
  | COpt _ c => dec_user c k
  | CLen _ c => dec_user c k
  | CLen2 _ c => dec_user c k
  | CMax _ c => dec_user c k
  | CPeek c => dec_user c k
  | CMaybe c => dec_user c k
  | CPre c => dec_user c k
  | CSeq c => dec_user c k
  | CSeqN _ c => dec_user c k
  | CPrefixed _ _ c => dec_user c k
  | CCounted _ c => dec_user c k
  | CFlagged _ c => dec_user c k
  | _ => False
  end
with pdec_user {A} (p : parts A) (k : ErrorKind) : Prop :=
  match p with
  | PTwo c c' => dec_user c k \/ dec_user c' k
  | PSnoc p c => pdec_user p k \/ dec_user c k
  end.
(** The same for [map_err], [try_map_from] and monolithic encoders. *)
Fixpoint enc_user {A} (c : codec A) (k : ErrorKind) : Prop :=
  match c with
  | CMono _ g => exists a chunks, g a = (chunks, Some k)
  | CTuple p => penc_user p k
  | CMap _ _ c => enc_user c k
  | CTryMap _ g c => enc_user c k \/ exists b, g b = inr k
  | CMapErr _ g c => exists k0, k = g k0
  | COpt _ c => enc_user c k
  | CLen _ c => enc_user c k
  | CLen2 _ c => enc_user c k
  | CMax _ c => enc_user c k
  | CPeek c => enc_user c k
  | CMaybe c => enc_user c k
  | CPre c => enc_user c k
  | CSeq c => enc_user c k
  | CSeqN _ c => enc_user c k
  | CPrefixed _ _ c => enc_user c k
  | CCounted _ c => enc_user c k
  | CFlagged _ c => enc_user c k
  | _ => False
  end
with penc_user {A} (p : parts A) (k : ErrorKind) : Prop :=
  match p with
  | PTwo c c' => enc_user c k \/ enc_user c' k
  | PSnoc p c => penc_user p k \/ enc_user c k
  end.

(** What a composition is made of: [length] on the decoder; [BytesDecoder]; something that checks
    the input of a decoder (UTF-8, padding, [max_bytes]); [length] on the encoder; something that checks the items of an encoder
    (24, 40, 48 and 56 bit numbers, [length], [max_bytes]); [pre_encode]. *)
Inductive part_kind := DecLength | DecOnce | DecCheck | EncLength | EncCheck | EncPre.
Fixpoint uses {A} (c : codec A) (u : part_kind) : bool :=
  match c with
  | CU n => match u with EncCheck => narrow n | _ => false end
  | CBytesOnce _ => match u with DecOnce => true | _ => false end
  | CUtf8Rest | CUtf8 _ => match u with DecCheck => true | _ => false end
  | CPad _ _ => match u with DecLength | DecCheck | EncLength | EncCheck => true | _ => false end
  | CTuple p => puses p u
  | CMap _ _ c => uses c u
  | CTryMap _ _ c => uses c u
  | CMapErr _ _ c => uses c u
  | COpt _ c => uses c u
  | CLen _ c => match u with DecLength => true | _ => uses c u end
  | CLen2 _ c => match u with DecLength | EncLength | EncCheck => true | _ => uses c u end
  | CMax _ c => match u with DecCheck | EncCheck => true | _ => uses c u end
  | CPeek c => uses c u
  | CMaybe c => uses c u
  | CPre c => match u with EncPre => true | _ => uses c u end
  | CSeq c => uses c u
  | CSeqN _ c => uses c u
  | CPrefixed n _ c => match u with DecLength => true | EncCheck => narrow n || uses c u | _ => uses c u end
  | CCounted n c => match u with EncCheck => narrow n || uses c u | _ => uses c u end
  | CFlagged n c => match u with EncCheck => narrow n || uses c u | _ => uses c u end
  | _ => false
  end
with puses {A} (p : parts A) (u : part_kind) : bool :=
  match p with
  | PTwo c c' => uses c u || uses c' u
  | PSnoc p c => puses p u || uses c u
  end.

(** What explains an error of kind [k] from [decode] and from [finish_decoding] when idle. *)
Definition decode_cause {A} (c : codec A) (e : Eos) (k : ErrorKind) : Prop :=
  match k with
  | UnexpectedEos => is_reached e = true \/ uses c DecLength = true
  | InvalidInput => uses c DecCheck = true
  | DecoderTerminated => uses c DecOnce = true
  | IncompleteDecoding => uses c DecLength = true
  | EncoderFull | InconsistentState | Other => False
  end.
Definition finish_cause {A} (c : codec A) (k : ErrorKind) : Prop :=
  match k with
  | InvalidInput => uses c DecCheck = true
  | DecoderTerminated => uses c DecOnce = true
  | IncompleteDecoding => uses c DecLength = true
  | UnexpectedEos | EncoderFull | InconsistentState | Other => False
  end.
(** The same for [encode] and for [start_encoding], idle or not.  [pre_encode] runs its encoder
    in [start_encoding], and may return any error there. *)
Definition encode_cause {A} (c : codec A) (e : Eos) (k : ErrorKind) : Prop :=
  match k with
  | UnexpectedEos => is_reached e = true \/ uses c EncLength = true
  | InvalidInput => uses c EncCheck = true
  | EncoderFull => uses c EncLength = true
  | DecoderTerminated | IncompleteDecoding | InconsistentState | Other => False
  end.
Definition start_cause {A} (c : codec A) (idle : bool) (k : ErrorKind) : Prop :=
  match k with
  | InvalidInput => uses c EncCheck = true
  | EncoderFull => idle = false \/ uses c EncLength = true
  | UnexpectedEos | DecoderTerminated | IncompleteDecoding | InconsistentState | Other => False
  end.
