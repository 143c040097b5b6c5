(** * Fixed-width numbers: src/fixnum.rs.

    Unsigned items are [N], signed items are [Z], floating point items are their bit
    pattern as [N] ([f32::to_bits]/[from_bits], which is what [byteorder] uses). *)
From Verif Require Export Prim.
Set Implicit Arguments.

(** [n as u8]. *)
Definition byte_of_N (n : N) : byte :=
  match Byte.of_N (n mod 256) with Some b => b | None => x00 end.

(** The reads of src/fixnum.rs (crate byteorder, imported at line 4): [u64::from_be_bytes] as computed on the significant bytes: shift and or.
    [byteorder::BigEndian::read_u16/u24/u32/uint/u64]. *)
Definition read_be (l : list byte) : N :=
  fold_left (fun a b => N.lor (N.shiftl a 8) (Byte.to_N b)) l 0%N.
(** [byteorder::LittleEndian::read_*]. *)
Definition read_le (l : list byte) : N := read_be (rev l).

(** [to_le_bytes]: the [width] low bytes by shift and mask.
    [byteorder::LittleEndian::write_*]. *)
Fixpoint write_le (width : nat) (n : N) : list byte :=
  match width with
  | 0 => []
  | S w => byte_of_N (N.land n 255) :: write_le w (N.shiftr n 8)
  end.
(** [byteorder::BigEndian::write_*], used by the [encode_item]s of src/fixnum.rs. *)
Definition write_be (width : nat) (n : N) : list byte := rev (write_le width n).

(** [as uN] (src/fixnum.rs, signed types): two's complement reinterpretation of a signed number of [8*width] bits. *)
Definition as_unsigned (width : nat) (z : Z) : N := Z.to_N (z mod 2 ^ (8 * Z.of_nat width)).
(** [as iN]. *)
Definition as_signed (width : nat) (n : N) : Z :=
  if (n <? 2 ^ (8 * N.of_nat width - 1))%N then Z.of_N n
  else (Z.of_N n - 2 ^ (8 * Z.of_nat width))%Z.

(** ** The macros of src/fixnum.rs *)

(** The state of every number decoder (src/fixnum.rs:6-28, and [new] of each type): [CopyableBytesDecoder<[u8; width]>] (all zero). *)
Definition NumDec := CopyDec (list byte).
Definition num_dec_new (width : nat) : NumDec := copy_dec_new (repeat x00 width).
(** [impl_decode!]: src/fixnum.rs:6-28; [decode_item] is the type's conversion function. *)
Definition num_decoder {T} (decode_item : list byte -> T) : Decoder NumDec T :=
  {| dec_decode := dec_decode (copy_decoder vec_box);
     dec_finish := fun st =>
       let '(st', r) := dec_finish (copy_decoder vec_box) st in (st', rmap decode_item r);
     dec_req := dec_req (copy_decoder vec_box);
     dec_idle := dec_idle (copy_decoder vec_box) |}.

Definition NumEnc := BytesEnc (list byte).
Definition num_enc_new : NumEnc := bytes_enc_new.
(** [impl_encode!]: src/fixnum.rs:30-59. *)
Definition num_encoder {T} (encode_item : T -> list byte + ErrorKind) : Encoder NumEnc T :=
  {| enc_encode := enc_encode (bytes_encoder vec_box);
     enc_start := fun fuel st item =>
       match encode_item item with
       | inl b => enc_start (bytes_encoder vec_box) fuel st b
       | inr k => (st, Err k)
       end;
     enc_req := enc_req (bytes_encoder vec_box);
     enc_idle := enc_idle (bytes_encoder vec_box) |}.
(** src/fixnum.rs:53-57. *)
Definition num_enc_exact (st : NumEnc) : res N := bytes_enc_exact vec_box st.

(** ** The types.  Each pair cites [decode_item]/[encode_item]. *)

(** An [encode_item] of src/fixnum.rs that accepts everything / checks [n <= max]. *)
Definition total_item {T} (f : T -> list byte) (n : T) : list byte + ErrorKind := inl (f n).
Definition max_item (max : N) (f : N -> list byte) (n : N) : list byte + ErrorKind :=
  if (n <=? max)%N then inl (f n) else inr InvalidInput.

(** src/fixnum.rs:82-84, 111-114. *)
Definition U8Decoder : Decoder NumDec N := num_decoder read_be.
Definition U8Encoder : Encoder NumEnc N := num_encoder (total_item (write_be 1)).
(** src/fixnum.rs:139-141, 168-171. *)
Definition I8Decoder : Decoder NumDec Z := num_decoder (fun b => as_signed 1 (read_be b)).
Definition I8Encoder : Encoder NumEnc Z :=
  num_encoder (total_item (fun z => write_be 1 (as_unsigned 1 z))).
(** src/fixnum.rs:196-198, 223-225, 252-255, 282-285. *)
Definition U16beDecoder : Decoder NumDec N := num_decoder read_be.
Definition U16leDecoder : Decoder NumDec N := num_decoder read_le.
Definition U16beEncoder : Encoder NumEnc N := num_encoder (total_item (write_be 2)).
Definition U16leEncoder : Encoder NumEnc N := num_encoder (total_item (write_le 2)).
(** src/fixnum.rs:310-312, 337-339, 366-369, 396-399. *)
Definition I16beDecoder : Decoder NumDec Z := num_decoder (fun b => as_signed 2 (read_be b)).
Definition I16leDecoder : Decoder NumDec Z := num_decoder (fun b => as_signed 2 (read_le b)).
Definition I16beEncoder : Encoder NumEnc Z :=
  num_encoder (total_item (fun z => write_be 2 (as_unsigned 2 z))).
Definition I16leEncoder : Encoder NumEnc Z :=
  num_encoder (total_item (fun z => write_le 2 (as_unsigned 2 z))).
(** src/fixnum.rs:426-428, 455-457, 485-489, 517-521. *)
Definition U24beDecoder : Decoder NumDec N := num_decoder read_be.
Definition U24leDecoder : Decoder NumDec N := num_decoder read_le.
Definition U24beEncoder : Encoder NumEnc N := num_encoder (max_item 0xFFFFFF (write_be 3)).
Definition U24leEncoder : Encoder NumEnc N := num_encoder (max_item 0xFFFFFF (write_le 3)).
(** src/fixnum.rs:546-548, 573-575, 602-605, 632-635. *)
Definition U32beDecoder : Decoder NumDec N := num_decoder read_be.
Definition U32leDecoder : Decoder NumDec N := num_decoder read_le.
Definition U32beEncoder : Encoder NumEnc N := num_encoder (total_item (write_be 4)).
Definition U32leEncoder : Encoder NumEnc N := num_encoder (total_item (write_le 4)).
(** src/fixnum.rs:660-662, 687-689, 716-719, 746-749. *)
Definition I32beDecoder : Decoder NumDec Z := num_decoder (fun b => as_signed 4 (read_be b)).
Definition I32leDecoder : Decoder NumDec Z := num_decoder (fun b => as_signed 4 (read_le b)).
Definition I32beEncoder : Encoder NumEnc Z :=
  num_encoder (total_item (fun z => write_be 4 (as_unsigned 4 z))).
Definition I32leEncoder : Encoder NumEnc Z :=
  num_encoder (total_item (fun z => write_le 4 (as_unsigned 4 z))).
(** src/fixnum.rs:776-778, 805-807, 835-840, 868-873. *)
Definition U40beDecoder : Decoder NumDec N := num_decoder read_be.
Definition U40leDecoder : Decoder NumDec N := num_decoder read_le.
Definition U40beEncoder : Encoder NumEnc N := num_encoder (max_item 0xFFFFFFFFFF (write_be 5)).
Definition U40leEncoder : Encoder NumEnc N := num_encoder (max_item 0xFFFFFFFFFF (write_le 5)).
(** src/fixnum.rs:900-902, 929-931, 959-964, 992-997. *)
Definition U48beDecoder : Decoder NumDec N := num_decoder read_be.
Definition U48leDecoder : Decoder NumDec N := num_decoder read_le.
Definition U48beEncoder : Encoder NumEnc N := num_encoder (max_item 0xFFFFFFFFFFFF (write_be 6)).
Definition U48leEncoder : Encoder NumEnc N := num_encoder (max_item 0xFFFFFFFFFFFF (write_le 6)).
(** src/fixnum.rs:1024-1026, 1053-1055, 1083-1088, 1116-1121. *)
Definition U56beDecoder : Decoder NumDec N := num_decoder read_be.
Definition U56leDecoder : Decoder NumDec N := num_decoder read_le.
Definition U56beEncoder : Encoder NumEnc N :=
  num_encoder (max_item 0xFFFFFFFFFFFFFF (write_be 7)).
Definition U56leEncoder : Encoder NumEnc N :=
  num_encoder (max_item 0xFFFFFFFFFFFFFF (write_le 7)).
(** src/fixnum.rs:1146-1148, 1173-1175, 1202-1205, 1232-1235. *)
Definition U64beDecoder : Decoder NumDec N := num_decoder read_be.
Definition U64leDecoder : Decoder NumDec N := num_decoder read_le.
Definition U64beEncoder : Encoder NumEnc N := num_encoder (total_item (write_be 8)).
Definition U64leEncoder : Encoder NumEnc N := num_encoder (total_item (write_le 8)).
(** src/fixnum.rs:1260-1262, 1287-1289, 1316-1319, 1346-1349. *)
Definition I64beDecoder : Decoder NumDec Z := num_decoder (fun b => as_signed 8 (read_be b)).
Definition I64leDecoder : Decoder NumDec Z := num_decoder (fun b => as_signed 8 (read_le b)).
Definition I64beEncoder : Encoder NumEnc Z :=
  num_encoder (total_item (fun z => write_be 8 (as_unsigned 8 z))).
Definition I64leEncoder : Encoder NumEnc Z :=
  num_encoder (total_item (fun z => write_le 8 (as_unsigned 8 z))).
(** src/fixnum.rs:1374-1376, 1401-1403, 1430-1433, 1460-1463; the item is the bit pattern. *)
Definition F32beDecoder : Decoder NumDec N := num_decoder read_be.
Definition F32leDecoder : Decoder NumDec N := num_decoder read_le.
Definition F32beEncoder : Encoder NumEnc N := num_encoder (total_item (write_be 4)).
Definition F32leEncoder : Encoder NumEnc N := num_encoder (total_item (write_le 4)).
(** src/fixnum.rs:1488-1490, 1515-1517, 1544-1547, 1574-1577. *)
Definition F64beDecoder : Decoder NumDec N := num_decoder read_be.
Definition F64leDecoder : Decoder NumDec N := num_decoder read_le.
Definition F64beEncoder : Encoder NumEnc N := num_encoder (total_item (write_be 8)).
Definition F64leEncoder : Encoder NumEnc N := num_encoder (total_item (write_le 8)).
