(** * Primitive codecs: src/bytes.rs, src/null.rs, src/padding.rs, src/slice.rs,
      src/monolithic.rs. *)
From Verif Require Export Iface.
Set Implicit Arguments.

(** ** Byte containers: the bounds [AsRef<[u8]>] and [AsMut<[u8]>] of src/bytes.rs:41, 144, 233

    [bx_ref b] is the content of [b.as_ref()]; [bx_put b l] is [b] after its [as_mut()]
    slice has been overwritten with [l] (used only with a list of the same length). *)
Record ByteBox (B : Type) := mkByteBox {
  bx_ref : B -> list byte;
  bx_put : B -> list byte -> B
}.

(** [Vec<u8>], [[u8; N]], [Box<[u8]>], [&mut [u8]] ...: the content is the value. *)
Definition vec_box : ByteBox (list byte) := mkByteBox (fun b => b) (fun _ l => l).

(** ** OwnedSlice: src/slice.rs:14-18 *)
Record OwnedSlice (T : Type) := mkOwnedSlice { os_inner : T; os_start : nat; os_end : nat }.
Arguments mkOwnedSlice {T}.

(** [&inner[start..end]] (src/slice.rs:55, 63) panics unless [start <= end <= inner.len()]. *)
Definition os_valid {T} (BX : ByteBox T) (o : OwnedSlice T) : bool :=
  (os_start o <=? os_end o) && (os_end o <=? length (bx_ref BX (os_inner o))).
(** [AsRef for OwnedSlice]: src/slice.rs:50-57. *)
Definition os_as_ref {T} (BX : ByteBox T) (o : OwnedSlice T) : res (list byte) :=
  if os_valid BX o
  then Ok (firstn (os_end o - os_start o) (skipn (os_start o) (bx_ref BX (os_inner o))))
  else Panic.
(** Writing through [AsMut for OwnedSlice]: src/slice.rs:58-65. *)
Definition os_as_mut_write {T} (BX : ByteBox T) (o : OwnedSlice T) (l : list byte)
    : res (OwnedSlice T) :=
  if os_valid BX o
  then Ok (mkOwnedSlice (bx_put BX (os_inner o) (overwrite (bx_ref BX (os_inner o)) (os_start o) l))
                        (os_start o) (os_end o))
  else Panic.
(** [OwnedSlice] as a byte container, for valid windows ([os_valid]) only; on an invalid window
    (where the code panics on every access) this shows an empty, unwritable slice. *)
Definition os_box {T} (BX : ByteBox T) : ByteBox (OwnedSlice T) :=
  mkByteBox
    (fun o => match os_as_ref BX o with Ok l => l | _ => [] end)
    (fun o l => match os_as_mut_write BX o l with Ok o' => o' | _ => o end).

(** ** BytesEncoder: src/bytes.rs:23-26 *)
Record BytesEnc (B : Type) := mkBytesEnc { be_bytes : option B; be_off : nat }.
Arguments mkBytesEnc {B}.
(** [Default]/[new]: src/bytes.rs:27-40. *)
Definition bytes_enc_new {B} : BytesEnc B := mkBytesEnc None 0.

(** src/bytes.rs:44-64.  As in the code, on [UnexpectedEos] the offset has moved. *)
Definition bytes_encode {B} (BX : ByteBox B) (st : BytesEnc B) (buf : list byte) (e : Eos)
    : BytesEnc B * list byte * res nat :=
  match be_bytes st with
  | Some b =>
      match usize_sub (length (bx_ref BX b)) (be_off st) with
      | None => (st, buf, Panic)
      | Some rest =>
          let size := Nat.min (length buf) rest in
          let buf' := overwrite buf 0 (firstn size (skipn (be_off st) (bx_ref BX b))) in
          let off' := be_off st + size in
          if off' =? length (bx_ref BX b) then (mkBytesEnc None off', buf', Ok size)
          else if is_reached e then (mkBytesEnc (Some b) off', buf', Err UnexpectedEos)
          else (mkBytesEnc (Some b) off', buf', Ok size)
      end
  | None => (st, buf, Ok 0)
  end.

(** src/bytes.rs:77-79. *)
Definition bytes_enc_idle {B} (st : BytesEnc B) : bool :=
  match be_bytes st with None => true | Some _ => false end.

(** src/bytes.rs:66-71. *)
Definition bytes_start {B} (st : BytesEnc B) (item : B) : BytesEnc B * res unit :=
  if bytes_enc_idle st then (mkBytesEnc (Some item) 0, Ok tt) else (st, Err EncoderFull).

(** [exact_requiring_bytes]: src/bytes.rs:81-87. *)
Definition bytes_enc_exact {B} (BX : ByteBox B) (st : BytesEnc B) : res N :=
  match be_bytes st with
  | None => Ok 0%N
  | Some b => match usize_sub (length (bx_ref BX b)) (be_off st) with
              | Some n => Ok (N.of_nat n)
              | None => Panic
              end
  end.

(** src/bytes.rs:41-80. *)
Definition bytes_encoder {B} (BX : ByteBox B) : Encoder (BytesEnc B) B :=
  {| enc_encode := fun _ => bytes_encode BX;
     enc_start := fun _ => @bytes_start B;
     enc_req := fun st => rmap Finite (bytes_enc_exact BX st);
     enc_idle := @bytes_enc_idle B |}.

(** ** CopyableBytesDecoder: src/bytes.rs:119-122 *)
Record CopyDec (B : Type) := mkCopyDec { cd_bytes : B; cd_off : nat }.
Arguments mkCopyDec {B}.
(** [new]: src/bytes.rs:125-127. *)
Definition copy_dec_new {B} (b : B) : CopyDec B := mkCopyDec b 0.

(** src/bytes.rs:147-156. *)
Definition copy_decode {B} (BX : ByteBox B) (st : CopyDec B) (buf : list byte) (e : Eos)
    : CopyDec B * res nat :=
  match usize_sub (length (bx_ref BX (cd_bytes st))) (cd_off st) with
  | None => (st, Panic)
  | Some room =>
      let size := Nat.min (length buf) room in
      let bytes' := bx_put BX (cd_bytes st)
                      (overwrite (bx_ref BX (cd_bytes st)) (cd_off st) (firstn size buf)) in
      let off' := cd_off st + size in
      if negb (off' =? length (bx_ref BX bytes')) && is_reached e
      then (mkCopyDec bytes' off', Err UnexpectedEos)
      else (mkCopyDec bytes' off', Ok size)
  end.

(** src/bytes.rs:158-166. *)
Definition copy_finish {B} (BX : ByteBox B) (st : CopyDec B) : CopyDec B * res B :=
  if cd_off st =? length (bx_ref BX (cd_bytes st))
  then (mkCopyDec (cd_bytes st) 0, Ok (cd_bytes st))
  else (st, Err IncompleteDecoding).

(** src/bytes.rs:144-175. *)
Definition copy_decoder {B} (BX : ByteBox B) : Decoder (CopyDec B) B :=
  {| dec_decode := fun _ => copy_decode BX;
     dec_finish := copy_finish BX;
     dec_req := fun st =>
       match usize_sub (length (bx_ref BX (cd_bytes st))) (cd_off st) with
       | Some n => Ok (Finite (N.of_nat n))
       | None => Panic
       end;
     dec_idle := fun st => cd_off st =? length (bx_ref BX (cd_bytes st)) |}.

(** ** BytesDecoder: src/bytes.rs:196-199 *)
Record BytesDec (B : Type) := mkBytesDec { bd_bytes : option B; bd_off : nat }.
Arguments mkBytesDec {B}.
(** [new]: src/bytes.rs:202-207; [Default]: src/bytes.rs:225-232. *)
Definition bytes_dec_new {B} (b : B) : BytesDec B := mkBytesDec (Some b) 0.
Definition bytes_dec_default {B} : BytesDec B := mkBytesDec None 0.
(** [set_bytes]: src/bytes.rs:210-213. *)
Definition bytes_dec_set {B} (st : BytesDec B) (b : B) : BytesDec B := mkBytesDec (Some b) 0.

(** [exact_requiring_bytes]: src/bytes.rs:215-219.  Truncated subtraction: the code would
    panic for [offset > len], which no reachable state has (see the safety theorems). *)
Definition bytes_dec_exact {B} (BX : ByteBox B) (st : BytesDec B) : nat :=
  match bd_bytes st with
  | None => 0
  | Some b => length (bx_ref BX b) - bd_off st
  end.

(** src/bytes.rs:236-248. *)
Definition bytes_decode {B} (BX : ByteBox B) (st : BytesDec B) (buf : list byte) (e : Eos)
    : BytesDec B * res nat :=
  match bd_bytes st with
  | None => (st, Err DecoderTerminated)
  | Some b =>
      match usize_sub (length (bx_ref BX b)) (bd_off st) with
      | None => (st, Panic)
      | Some room =>
          let size := Nat.min (length buf) room in
          let b' := bx_put BX b (overwrite (bx_ref BX b) (bd_off st) (firstn size buf)) in
          let st' := mkBytesDec (Some b') (bd_off st + size) in
          if negb (bytes_dec_exact BX st' =? 0) && is_reached e
          then (st', Err UnexpectedEos)
          else (st', Ok size)
      end
  end.

(** src/bytes.rs:250-258. *)
Definition bytes_finish {B} (BX : ByteBox B) (st : BytesDec B) : BytesDec B * res B :=
  if bytes_dec_exact BX st =? 0 then
    match bd_bytes st with
    | Some b => (mkBytesDec None (bd_off st), Ok b)
    | None => (st, Err DecoderTerminated)
    end
  else (st, Err IncompleteDecoding).

(** src/bytes.rs:233-267. *)
Definition bytes_decoder {B} (BX : ByteBox B) : Decoder (BytesDec B) B :=
  {| dec_decode := fun _ => bytes_decode BX;
     dec_finish := bytes_finish BX;
     dec_req := fun st =>
       match bd_bytes st with
       | None => Ok (Finite 0)
       | Some b => match usize_sub (length (bx_ref BX b)) (bd_off st) with
                   | Some n => Ok (Finite (N.of_nat n))
                   | None => Panic
                   end
       end;
     dec_idle := fun st => bytes_dec_exact BX st =? 0 |}.

(** ** RemainingBytesDecoder: src/bytes.rs:290-293 *)
Record RemDec := mkRemDec { rm_buf : list byte; rm_eos : bool }.
(** [new]: src/bytes.rs:296-298. *)
Definition rem_dec_new : RemDec := mkRemDec [] false.

(** src/bytes.rs:303-314.  [Vec::reserve_exact(additional)] panics if [len + additional] exceeds
    [isize::MAX]; [buf.len() + remaining as usize] overflows above [usize::MAX], which is
    subsumed.  Running out of memory below that limit is not modelled. *)
Definition rem_decode (st : RemDec) (buf : list byte) (e : Eos) : RemDec * res nat :=
  if rm_eos st then (st, Ok 0)
  else
    let go := (mkRemDec (rm_buf st ++ buf) (is_reached e), Ok (length buf)) in
    match bc_to_u64 (remaining_bytes e) with
    | Some remaining =>
        if (len (rm_buf st) + (len buf + remaining) <=? isize_max)%N then go else (st, Panic)
    | None => go
    end.

(** src/bytes.rs:316-321. *)
Definition rem_finish (st : RemDec) : RemDec * res (list byte) :=
  if rm_eos st then (mkRemDec [] false, Ok (rm_buf st)) else (st, Err IncompleteDecoding).

(** src/bytes.rs:300-334. *)
Definition rem_decoder : Decoder RemDec (list byte) :=
  {| dec_decode := fun _ => rem_decode;
     dec_finish := rem_finish;
     dec_req := fun st => Ok (if rm_eos st then Finite 0 else Infinite);
     dec_idle := rm_eos |}.

(** ** NullDecoder, NullEncoder: src/null.rs:8-57 *)
Definition null_decoder : Decoder unit unit :=
  {| dec_decode := fun _ s _ _ => (s, Ok 0);
     dec_finish := fun s => (s, Ok tt);
     dec_req := fun _ => Ok (Finite 0);
     dec_idle := fun _ => true |}.
Definition null_encoder : Encoder unit unit :=
  {| enc_encode := fun _ s buf _ => (s, buf, Ok 0);
     enc_start := fun _ s _ => (s, Ok tt);
     enc_req := fun _ => Ok (Finite 0);
     enc_idle := fun _ => true |}.
(** src/null.rs:53-57. *)
Definition null_enc_exact (_ : unit) : res N := Ok 0%N.

(** ** PaddingDecoder: src/padding.rs:8-11 *)
Record PadDec := mkPadDec { pd_expected : option byte; pd_eos : bool }.
(** [new]: src/padding.rs:14-19; [set_expected_byte]: src/padding.rs:29-31. *)
Definition pad_dec_new (b : option byte) : PadDec := mkPadDec b false.
Definition pad_dec_set (st : PadDec) (b : option byte) : PadDec := mkPadDec b (pd_eos st).

(** src/padding.rs:36-49. *)
Definition pad_decode (st : PadDec) (buf : list byte) (e : Eos) : PadDec * res nat :=
  if pd_eos st then (st, Ok 0)
  else match pd_expected st with
       | Some expected =>
           if forallb (fun b => Byte.eqb b expected) buf
           then (mkPadDec (pd_expected st) (is_reached e), Ok (length buf))
           else (st, Err InvalidInput)
       | None => (mkPadDec (pd_expected st) (is_reached e), Ok (length buf))
       end.

(** src/padding.rs:33-69. *)
Definition pad_decoder : Decoder PadDec unit :=
  {| dec_decode := fun _ => pad_decode;
     dec_finish := fun st =>
       if pd_eos st then (mkPadDec (pd_expected st) false, Ok tt) else (st, Err IncompleteDecoding);
     dec_req := fun st => Ok (if pd_eos st then Finite 0 else Infinite);
     dec_idle := pd_eos |}.

(** ** PaddingEncoder: src/padding.rs:75-119.  State: [padding_byte]. *)
Definition pad_encode (st : option byte) (buf : list byte) (e : Eos)
    : option byte * list byte * res nat :=
  match st with
  | Some b =>
      (if is_reached e then None else Some b, map (fun _ => b) buf, Ok (length buf))
  | None => (st, buf, Ok 0)
  end.
Definition pad_encoder : Encoder (option byte) byte :=
  {| enc_encode := fun _ => pad_encode;
     enc_start := fun _ st item =>
       match st with None => (Some item, Ok tt) | Some _ => (st, Err EncoderFull) end;
     enc_req := fun st => Ok (match st with None => Finite 0 | Some _ => Infinite end);
     enc_idle := fun st => match st with None => true | Some _ => false end |}.

(** ** MonolithicDecoder: src/monolithic.rs:19-23

    The [MonolithicDecode] object (src/monolithic.rs:10-15) is a function from the content of
    the reader to a result and the number of bytes it has read from the reader. *)
Definition MonoDecode (I : Type) := list byte -> (I + ErrorKind) * nat.
Record MonoDec (I : Type) := mkMonoDec { md_item : option I; md_buf : list byte }.
Arguments mkMonoDec {I}.
Definition mono_dec_new {I} : MonoDec I := mkMonoDec None [].

(** src/monolithic.rs:52-66.  The reader is [self.buf] followed by [buf]; the returned size is
    what was read from the second part. *)
Definition mono_decode {I} (f : MonoDecode I) (st : MonoDec I) (buf : list byte) (e : Eos)
    : MonoDec I * res nat :=
  if is_reached e then
    match f (md_buf st ++ buf) with
    | (inl item, read) =>
        (mkMonoDec (Some item) [], Ok (Nat.min (length buf) (read - length (md_buf st))))
    | (inr k, _) => (st, Err k)
    end
  else (mkMonoDec (md_item st) (md_buf st ++ buf), Ok (length buf)).

(** src/monolithic.rs:49-84. *)
Definition mono_decoder {I} (f : MonoDecode I) : Decoder (MonoDec I) I :=
  {| dec_decode := fun _ => mono_decode f;
     dec_finish := fun st =>
       match md_item st with
       | Some i => (mkMonoDec None (md_buf st), Ok i)
       | None => (st, Err IncompleteDecoding)
       end;
     dec_req := fun st => Ok (match md_item st with Some _ => Finite 0 | None => Unknown end);
     dec_idle := fun st => match md_item st with Some _ => true | None => false end |}.

(** ** WriterChain: src/monolithic.rs:173-193

    [a] is [&mut &mut [u8]]: [wc_room] bytes are left in it, [wc_a] are written; [b] is a [Vec]. *)
Record WriterChain := mkWC { wc_a : list byte; wc_room : nat; wc_b : list byte }.
(** [write]: src/monolithic.rs:183-188 ([<&mut [u8] as Write>::write] copies what fits). *)
Definition wc_write (w : WriterChain) (data : list byte) : WriterChain * nat :=
  let n := Nat.min (length data) (wc_room w) in
  if n =? 0 then (mkWC (wc_a w) (wc_room w) (wc_b w ++ data), length data)
  else (mkWC (wc_a w ++ firstn n data) (wc_room w - n) (wc_b w), n).
(** [std::io::Write::write_all] on the chain of src/monolithic.rs:182-193; the fuel is the length of the data (each round writes
    at least one byte), so it never runs out. *)
Fixpoint wc_write_all (fuel : nat) (w : WriterChain) (data : list byte) : WriterChain :=
  match data, fuel with
  | [], _ => w
  | _, 0 => w
  | _, S fuel' => let '(w', n) := wc_write w data in wc_write_all fuel' w' (skipn n data)
  end.

(** The [MonolithicEncode] object (src/monolithic.rs:88-95): a function from the item to the
    [write_all] calls it makes and the error it ends with, if any. *)
Definition MonoEncode (I : Type) := I -> list (list byte) * option ErrorKind.
(** src/monolithic.rs:99-103. *)
Record MonoEnc (I : Type) := mkMonoEnc { me_item : option I; me_buf : BytesEnc (list byte) }.
Arguments mkMonoEnc {I}.
Definition mono_enc_new {I} : MonoEnc I := mkMonoEnc None bytes_enc_new.

(** src/monolithic.rs:157-159. *)
Definition mono_enc_idle {I} (st : MonoEnc I) : bool :=
  match me_item st with None => bytes_enc_idle (me_buf st) | Some _ => false end.

(** src/monolithic.rs:132-149. *)
Definition mono_encode {I} (f : MonoEncode I) (st : MonoEnc I) (buf : list byte) (e : Eos)
    : MonoEnc I * list byte * res nat :=
  match me_item st with
  | Some item =>
      let '(chunks, err) := f item in
      let w := fold_left (fun w c => wc_write_all (length c) w c) chunks
                         (mkWC [] (length buf) []) in
      let buf' := overwrite buf 0 (wc_a w) in
      match err with
      | Some k => (mkMonoEnc None (me_buf st), buf', Err k)
      | None =>
          match wc_b w with
          | [] => (mkMonoEnc None (me_buf st), buf', Ok (length (wc_a w)))
          | _ :: _ =>
              match bytes_start (me_buf st) (wc_b w) with
              | (b', Ok _) => (mkMonoEnc None b', buf', Ok (length buf))
              | (b', r) => (mkMonoEnc None b', buf', rcast r)
              end
          end
      end
  | None =>
      let '(b', buf', r) := bytes_encode vec_box (me_buf st) buf e in
      (mkMonoEnc None b', buf', r)
  end.

(** src/monolithic.rs:129-170. *)
Definition mono_encoder {I} (f : MonoEncode I) : Encoder (MonoEnc I) I :=
  {| enc_encode := fun _ => mono_encode f;
     enc_start := fun _ st item =>
       if mono_enc_idle st then (mkMonoEnc (Some item) (me_buf st), Ok tt)
       else (st, Err EncoderFull);
     enc_req := fun st =>
       if mono_enc_idle st then Ok (Finite 0)
       else match me_item st with
            | Some _ => Ok Unknown
            | None => rmap Finite (bytes_enc_exact vec_box (me_buf st))
            end;
     enc_idle := @mono_enc_idle I |}.
