(** * UTF-8 codecs: src/bytes.rs:336-465.

    A Rust [String]/[str] is modelled by its list of Unicode scalar values. *)
From Verif Require Export Prim Fixnum.
Set Implicit Arguments.

(** [char::encode_utf8] (core library), by shifts and masks. *)
Definition char_to_bytes (c : N) : list byte :=
  if (c <? 0x80)%N then [byte_of_N c]
  else if (c <? 0x800)%N then
    [ byte_of_N (N.lor 0xC0 (N.shiftr c 6)); byte_of_N (N.lor 0x80 (N.land c 0x3F)) ]
  else if (c <? 0x10000)%N then
    [ byte_of_N (N.lor 0xE0 (N.shiftr c 12));
      byte_of_N (N.lor 0x80 (N.land (N.shiftr c 6) 0x3F));
      byte_of_N (N.lor 0x80 (N.land c 0x3F)) ]
  else
    [ byte_of_N (N.lor 0xF0 (N.shiftr c 18));
      byte_of_N (N.lor 0x80 (N.land (N.shiftr c 12) 0x3F));
      byte_of_N (N.lor 0x80 (N.land (N.shiftr c 6) 0x3F));
      byte_of_N (N.lor 0x80 (N.land c 0x3F)) ].

(** [str::as_bytes]; [AsRef<[u8]> for Utf8Bytes]: src/bytes.rs:336-342. *)
Definition str_as_bytes (s : list N) : list byte := flat_map char_to_bytes s.

(** Range test on a byte. *)
Definition in_range (lo hi : N) (b : byte) : bool :=
  (lo <=? Byte.to_N b)%N && (Byte.to_N b <=? hi)%N.
Definition is_cont (b : byte) : bool := in_range 0x80 0xBF b.
(** The low six bits of a continuation byte. *)
Definition cont_bits (b : byte) : N := N.land (Byte.to_N b) 0x3F.

(** [String::from_utf8] (called at src/bytes.rs:454): the validation table of [core::str::from_utf8]
    ([run_utf8_validation]) together with the code points ([next_code_point]).
    [None] is [Err(FromUtf8Error)]. *)
Fixpoint str_from_utf8 (l : list byte) : option (list N) :=
  match l with
  | [] => Some []
  | b0 :: l1 =>
      let x := Byte.to_N b0 in
      if (x <? 0x80)%N then option_map (cons x) (str_from_utf8 l1)
      else if in_range 0xC2 0xDF b0 then
        match l1 with
        | b1 :: l2 =>
            if is_cont b1 then
              option_map (cons (N.lor (N.shiftl (N.land x 0x1F) 6) (cont_bits b1)))
                         (str_from_utf8 l2)
            else None
        | _ => None
        end
      else if in_range 0xE0 0xEF b0 then
        match l1 with
        | b1 :: b2 :: l3 =>
            if (if (x =? 0xE0)%N then in_range 0xA0 0xBF b1
                else if (x =? 0xED)%N then in_range 0x80 0x9F b1
                else in_range 0x80 0xBF b1) && is_cont b2 then
              option_map
                (cons (N.lor (N.shiftl (N.land x 0x0F) 12)
                        (N.lor (N.shiftl (cont_bits b1) 6) (cont_bits b2))))
                (str_from_utf8 l3)
            else None
        | _ => None
        end
      else if in_range 0xF0 0xF4 b0 then
        match l1 with
        | b1 :: b2 :: b3 :: l4 =>
            if (if (x =? 0xF0)%N then in_range 0x90 0xBF b1
                else if (x =? 0xF4)%N then in_range 0x80 0x8F b1
                else in_range 0x80 0xBF b1) && is_cont b2 && is_cont b3 then
              option_map
                (cons (N.lor (N.shiftl (N.land x 0x07) 18)
                        (N.lor (N.shiftl (cont_bits b1) 12)
                          (N.lor (N.shiftl (cont_bits b2) 6) (cont_bits b3)))))
                (str_from_utf8 l4)
            else None
        | _ => None
        end
      else None
  end.

(** [Utf8Bytes<S>] (src/bytes.rs:337-342) as a byte container (read only: there is no [AsMut]). *)
Definition utf8_box : ByteBox (list N) := mkByteBox str_as_bytes (fun b _ => b).

(** [Utf8Encoder]: src/bytes.rs:360-395. *)
Definition Utf8Enc := BytesEnc (list N).
Definition utf8_enc_new : Utf8Enc := bytes_enc_new.
Definition utf8_encoder : Encoder Utf8Enc (list N) := bytes_encoder utf8_box.
Definition utf8_enc_exact (st : Utf8Enc) : res N := bytes_enc_exact utf8_box st.

(** [Utf8Decoder<D>]: src/bytes.rs:411-465. *)
Definition utf8_decoder {S} (D : Decoder S (list byte)) : Decoder S (list N) :=
  {| dec_decode := dec_decode D;
     dec_finish := fun s =>
       let '(s', r) := dec_finish D s in
       (s', rbind r (fun b => match str_from_utf8 b with
                              | Some str => Ok str
                              | None => Err InvalidInput
                              end));
     dec_req := dec_req D;
     dec_idle := dec_idle D |}.
