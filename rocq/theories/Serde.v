(** * The codecs built on serde: src/json_codec.rs, src/bincode_codec.rs; and the forwarding
    implementations for [&mut D] and [Box<D>]: src/decode.rs:85-122, src/encode.rs:73-126.

    The external crates are parameters:
    - [parse w = (r, n)]: [serde_json::from_reader]/[bincode::deserialize_from] on a reader with the
      content [w] gives the item [r] (or an error of that crate: [None]) and has read [n] bytes;
    - [ser i = (chunks, ok)]: [serde_json::to_writer]/[bincode::serialize_into] calls [write_all]
      with these chunks and returns [Ok] iff [ok]. *)
From Verif Require Export Prim.
Set Implicit Arguments.

Definition SerdeParse (I : Type) := list byte -> option I * nat.
Definition SerdeSer (I : Type) := I -> list (list byte) * bool.

(** [MonolithicJsonDecoder::monolithic_decode]: src/json_codec.rs:88-90. *)
Definition json_mono_decode {I} (parse : SerdeParse I) : MonoDecode I := fun w =>
  match parse w with
  | (Some i, n) => (inl i, n)
  | (None, n) => (inr InvalidInput, n)
  end.
(** [MonolithicJsonEncoder::monolithic_encode]: src/json_codec.rs:152-155. *)
Definition json_mono_encode {I} (ser : SerdeSer I) : MonoEncode I := fun i =>
  let '(chunks, ok) := ser i in (chunks, if ok then None else Some InvalidInput).
(** src/json_codec.rs:32-43, [Decode]: 44-65. *)
Definition JsonDec (I : Type) := MonoDec I.
Definition json_dec_new {I} : JsonDec I := mono_dec_new.
Definition json_decoder {I} (parse : SerdeParse I) : Decoder (JsonDec I) I :=
  let inner := mono_decoder (json_mono_decode parse) in
  {| dec_decode := dec_decode inner;
     dec_finish := dec_finish inner;
     dec_req := dec_req inner;
     dec_idle := dec_idle inner |}.
(** src/json_codec.rs:98-107, [Encode]: 108-129. *)
Definition JsonEnc (I : Type) := MonoEnc I.
Definition json_enc_new {I} : JsonEnc I := mono_enc_new.
Definition json_encoder {I} (ser : SerdeSer I) : Encoder (JsonEnc I) I :=
  let inner := mono_encoder (json_mono_encode ser) in
  {| enc_encode := enc_encode inner;
     enc_start := enc_start inner;
     enc_req := enc_req inner;
     enc_idle := enc_idle inner |}.

(** [MonolithicBincodeDecoder::monolithic_decode]: src/bincode_codec.rs:77-81. *)
Definition bincode_mono_decode {I} (parse : SerdeParse I) : MonoDecode I := fun w =>
  match parse w with
  | (Some i, n) => (inl i, n)
  | (None, n) => (inr InvalidInput, n)
  end.
(** [MonolithicBincodeEncoder::monolithic_encode]: src/bincode_codec.rs:143-146. *)
Definition bincode_mono_encode {I} (ser : SerdeSer I) : MonoEncode I := fun i =>
  let '(chunks, ok) := ser i in (chunks, if ok then None else Some InvalidInput).
(** src/bincode_codec.rs:16-27, [Decode]: 28-49. *)
Definition BincodeDec (I : Type) := MonoDec I.
Definition bincode_dec_new {I} : BincodeDec I := mono_dec_new.
Definition bincode_decoder {I} (parse : SerdeParse I) : Decoder (BincodeDec I) I :=
  let inner := mono_decoder (bincode_mono_decode parse) in
  {| dec_decode := dec_decode inner;
     dec_finish := dec_finish inner;
     dec_req := dec_req inner;
     dec_idle := dec_idle inner |}.
(** src/bincode_codec.rs:89-98, [Encode]: 99-120. *)
Definition BincodeEnc (I : Type) := MonoEnc I.
Definition bincode_enc_new {I} : BincodeEnc I := mono_enc_new.
Definition bincode_encoder {I} (ser : SerdeSer I) : Encoder (BincodeEnc I) I :=
  let inner := mono_encoder (bincode_mono_encode ser) in
  {| enc_encode := enc_encode inner;
     enc_start := enc_start inner;
     enc_req := enc_req inner;
     enc_idle := enc_idle inner |}.

(** ** [&mut D], [Box<D>]

    The state of a reference is the state of what it refers to: src/decode.rs:85-103 and 104-122;
    src/encode.rs:73-91 and 92-110. *)
Definition ref_decoder {S I} (D : Decoder S I) : Decoder S I :=
  {| dec_decode := dec_decode D;
     dec_finish := dec_finish D;
     dec_req := dec_req D;
     dec_idle := dec_idle D |}.
Definition box_decoder {S I} (D : Decoder S I) : Decoder S I :=
  {| dec_decode := dec_decode D;
     dec_finish := dec_finish D;
     dec_req := dec_req D;
     dec_idle := dec_idle D |}.
Definition ref_encoder {S I} (E : Encoder S I) : Encoder S I :=
  {| enc_encode := enc_encode E;
     enc_start := enc_start E;
     enc_req := enc_req E;
     enc_idle := enc_idle E |}.
Definition box_encoder {S I} (E : Encoder S I) : Encoder S I :=
  {| enc_encode := enc_encode E;
     enc_start := enc_start E;
     enc_req := enc_req E;
     enc_idle := enc_idle E |}.
(** [is_idle] has a default: src/decode.rs:81-83, src/encode.rs:69-71.  No implementation in the
    crate uses it. *)
Definition dec_default_idle {S I} (D : Decoder S I) (s : S) : bool :=
  match dec_req D s with Ok (Finite n) => (n =? 0)%N | _ => false end.
Definition enc_default_idle {S I} (E : Encoder S I) (s : S) : bool :=
  match enc_req E s with Ok (Finite n) => (n =? 0)%N | _ => false end.

(** ** Borrowing

    [&mut D] is the address of a variable; a call through it reads the variable, runs the method and
    writes the variable.  A memory is any type [M]; a [Place] is a variable in it, or any part of it
    that a reference or a box can designate. *)
Record Place (M S : Type) := mkPlace { pl_get : M -> S; pl_put : M -> S -> M }.
(** A call of a [&mut self] method through the reference. *)
Definition via {M S R} (p : Place M S) (call : S -> S * R) (m : M) : M * R :=
  let '(s', r) := call (pl_get p m) in (pl_put p m s', r).
(** src/decode.rs:85-103; [Box<D>] is the same with a place on the heap: 104-122. *)
Definition mut_decoder {M S I} (p : Place M S) (D : Decoder S I) : Decoder M I :=
  {| dec_decode := fun fuel m buf e => via p (fun s => dec_decode D fuel s buf e) m;
     dec_finish := via p (dec_finish D);
     dec_req := fun m => dec_req D (pl_get p m);
     dec_idle := fun m => dec_idle D (pl_get p m) |}.
(** src/encode.rs:73-91 and 92-110. *)
Definition mut_encoder {M S I} (p : Place M S) (E : Encoder S I) : Encoder M I :=
  {| enc_encode := fun fuel m buf e =>
       let '(s', buf', r) := enc_encode E fuel (pl_get p m) buf e in (pl_put p m s', buf', r);
     enc_start := fun fuel m i => via p (fun s => enc_start E fuel s i) m;
     enc_req := fun m => enc_req E (pl_get p m);
     enc_idle := fun m => enc_idle E (pl_get p m) |}.
(** [SizedEncode]: src/encode.rs:117-126. *)
Definition mut_exact {M S} (p : Place M S) (exact : S -> res N) (m : M) : res N := exact (pl_get p m).
(** [TaggedDecode::start_decoding] (src/decode.rs:456-474, for [&mut D] 475-481, for [Box<D>] 482-488) and
    [TryTaggedDecode::try_start_decoding] (491-509, 510-516 and 517-523): traits without an
    implementation in the crate except these. *)
Definition TaggedDecode (S T : Type) := S -> T -> S * res unit.
Definition TryTaggedDecode (S T : Type) := S -> T -> S * res bool.
Definition mut_tagged {M S T} (p : Place M S) (start : TaggedDecode S T) : TaggedDecode M T :=
  fun m tag => via p (fun s => start s tag) m.
Definition mut_try_tagged {M S T} (p : Place M S) (start : TryTaggedDecode S T) : TryTaggedDecode M T :=
  fun m tag => via p (fun s => start s tag) m.
