(** * The crate's own unit tests and documentation examples, replayed in the model.

    These are tests of the model, not proofs of properties: they check that the definitions the
    theorems speak about give, on the inputs the crate's authors wrote down, the results the
    authors assert.  Each example cites the test it replays.  Tests of the [serde] crates use a
    stand-in for the external parser or serialiser. *)
From Coq Require Import String.
From Verif Require Import Iface Prim Comb Fixnum Utf8 Tuple Serde Io.
Import ListNotations.

Definition b (s : string) : list byte := list_byte_of_string s.
Definition str (s : string) : list N := List.map Byte.to_N (b s).
Definition slice (s : string) : Reader := mkReader (b s) [].
Definition rd (l : list byte) : Reader := mkReader l [].
Definition vec : Writer := mkWriter [] [].
Definition bn (l : list N) : list byte := List.map byte_of_N l.

(** The result of a call and the state after it. *)
Definition exact {S I} (D : Decoder S I) (s : S) (r : Reader) : S * Reader * res I :=
  decode_exact D 50 50 s r.
Definition item {A B C} (x : A * B * C) : C := snd x.
(** [start_encoding] then [encode_all] into a fresh vector. *)
Definition start_all {S I} (E : Encoder S I) (s : S) (i : I) : S * list byte * res unit :=
  match enc_start E 50 s i with
  | (s1, Ok _) => let '(s2, w, r) := encode_all E 50 s1 vec in (s2, wr_data w, r)
  | (s1, r) => (s1, [], r)
  end.

(** src/byte_count.rs:109-128. *)
Definition bc_lt (x y : ByteCount) : bool :=
  match bc_partial_cmp x y with Some Lt => true | _ => false end.
Example byte_count_it_works :
  bc_default = Unknown
  /\ bc_is_finite (Finite 0) = true /\ bc_is_infinite Infinite = true
  /\ bc_is_unknown Unknown = true
  /\ bc_to_u64 (Finite 3) = Some 3%N /\ bc_to_u64 Infinite = None /\ bc_to_u64 Unknown = None
  /\ bc_lt (Finite 1) (Finite 2) = true /\ bc_lt (Finite 9) Infinite = true
  /\ bc_lt Infinite Unknown = false /\ bc_lt Unknown Infinite = false
  /\ bc_lt Unknown Unknown = false.
Proof. vm_compute. repeat split. Qed.

(** src/eos.rs:36-47. *)
Example eos_back_doc :
  is_reached (eos_new true) = true /\ remaining_bytes (eos_new true) = Finite 0
  /\ option_map is_reached (eos_back (eos_new true) 5) = Some false
  /\ option_map remaining_bytes (eos_back (eos_new true) 5) = Some (Finite 5).
Proof. vm_compute. repeat split. Qed.

(** src/bytes.rs:474-488 and 183-194. *)
Example bytes_decoder_works :
  let D := bytes_decoder vec_box in
  let s0 := bytes_dec_new (bn [0; 0; 0]%N) in
  let '(s1, r1, i1) := exact D s0 (slice "foobar") in
  dec_req D s0 = Ok (Finite 3) /\ i1 = Ok (b "foo") /\ dec_req D s1 = Ok (Finite 0)
  /\ item (exact D s1 r1) = Err DecoderTerminated.
Proof. vm_compute. repeat split. Qed.

(** src/bytes.rs:490-497; 348-358; 11-21. *)
Example utf8_encoder_works :
  let '(s, out, r) := start_all utf8_encoder utf8_enc_new (str "foo") in
  r = Ok tt /\ enc_idle utf8_encoder s = true /\ out = b "foo".
Proof. vm_compute. repeat split. Qed.
Example bytes_encoder_doc :
  let '(s, out, r) := start_all (bytes_encoder vec_box) bytes_enc_new (b "foo") in
  r = Ok tt /\ enc_idle (bytes_encoder vec_box) s = true /\ out = b "foo".
Proof. vm_compute. repeat split. Qed.

(** src/bytes.rs:95-117. *)
Example copyable_bytes_decoder_doc :
  let D := copy_decoder vec_box in
  let s0 := copy_dec_new (bn [0; 0; 0]%N) in
  let '(s1, r1) := dec_decode D 50 s0 (b "foo") (eos_new false) in
  let '(s2, i2) := dec_finish D s1 in
  let '(s3, r3) := dec_decode D 50 s2 (b "ba") (eos_new false) in
  let '(s4, r4) := dec_decode D 50 s3 (b "r") (eos_new true) in
  let '(s5, i5) := dec_finish D s4 in
  dec_req D s0 = Ok (Finite 3) /\ r1 = Ok 3 /\ dec_idle D s1 = true /\ i2 = Ok (b "foo")
  /\ dec_req D s2 = Ok (Finite 3) /\ r3 = Ok 2 /\ dec_idle D s3 = false
  /\ dec_req D s3 = Ok (Finite 1) /\ r4 = Ok 1 /\ dec_idle D s4 = true /\ i5 = Ok (b "bar").
Proof. vm_compute. repeat split. Qed.

(** src/bytes.rs:273-288. *)
Example remaining_bytes_decoder_doc :
  let D := rem_decoder in
  let '(s1, r1) := dec_decode D 50 rem_dec_new (b "foo") (eos_new false) in
  let '(s2, r2) := dec_decode D 50 s1 (b "bar") (eos_new true) in
  rmap bc_to_u64 (dec_req D rem_dec_new) = Ok None
  /\ r1 = Ok 3 /\ dec_idle D s1 = false /\ r2 = Ok 3 /\ dec_idle D s2 = true
  /\ snd (dec_finish D s2) = Ok (b "foobar").
Proof. vm_compute. repeat split. Qed.

(** [Utf8Decoder::new()]. *)
Definition Utf8D := utf8_decoder rem_decoder.
(** src/bytes.rs:401-409. *)
Example utf8_decoder_doc :
  let '(s1, r1) := dec_decode Utf8D 50 rem_dec_new (b "foo") (eos_new true) in
  r1 = Ok 3 /\ snd (dec_finish Utf8D s1) = Ok (str "foo").
Proof. vm_compute. repeat split. Qed.

(** [U8Decoder::new()] and the like. *)
Definition u8d := num_dec_new 1.
Definition u16d := num_dec_new 2.

(** src/combinator.rs:1462-1467; src/decode.rs:243-251. *)
Example collect_works :
  item (exact (collect_decoder U8Decoder) (collect_new u8d) (slice "foo")) = Ok (str "foo").
Proof. vm_compute. reflexivity. Qed.

(** src/combinator.rs:1469-1483. *)
Example collectn_works :
  item (exact (collectn_decoder U8Decoder) (collectn_new u8d 2) (slice "foo")) = Ok (str "fo")
  /\ item (exact (collectn_decoder U8Decoder) (collectn_new u8d 4) (slice "foo"))
     = Err UnexpectedEos.
Proof. vm_compute. repeat split. Qed.

(** src/combinator.rs:1485-1509. *)
Example decoder_length_works :
  let D := length_decoder Utf8D in
  let '(s1, r1, i1) := exact D (length_new rem_dec_new 3) (slice "foobarba") in
  let '(s2, r2, i2) := exact D s1 r1 in
  i1 = Ok (str "foo") /\ i2 = Ok (str "bar") /\ item (exact D s2 r2) = Err UnexpectedEos.
Proof. vm_compute. repeat split. Qed.
Example decoder_length_zero_works :
  let D := length_decoder Utf8D in
  let s0 := length_new rem_dec_new 0 in
  let '(s1, f1) := dec_finish D s0 in
  let '(s2, r2) := dec_decode D 50 s1 (b "foobarba") (eos_new false) in
  dec_idle D s0 = false /\ (exists k, f1 = Err k) /\ r2 = Ok 0 /\ dec_idle D s2 = true
  /\ (exists i, snd (dec_finish D s2) = Ok i).
Proof. vm_compute. repeat split; eexists; reflexivity. Qed.

(** src/combinator.rs:1511-1530. *)
Example encoder_length_works :
  let run x := start_all (length_encoder utf8_encoder) (length_new utf8_enc_new 3) (str x) in
  (let '(_, out, r) := run "hey"%string in r = Ok tt /\ out = b "hey")
  /\ item (run "hello"%string) = Err UnexpectedEos /\ item (run "hi"%string) = Err InvalidInput.
Proof. vm_compute. repeat split. Qed.

(** src/combinator.rs:1532-1539. *)
Example repeat_works :
  let '(_, out, r) := start_all (repeat_encoder U8Encoder) (repeat_new num_enc_new)
                        [0; 1; 2; 3]%N in
  r = Ok tt /\ out = bn [0; 1; 2; 3]%N.
Proof. vm_compute. repeat split. Qed.

(** src/combinator.rs:1541-1547; src/decode.rs:331-343. *)
Example decoder_max_bytes_works :
  let D := max_decoder Utf8D in
  let '(s1, i1) := decode_from_bytes D 50 (max_new rem_dec_new 3) (b "12") in
  let '(s2, i2) := decode_from_bytes D 50 s1 (b "123") in
  let '(s3, i3) := decode_from_bytes D 50 s2 (b "1234") in
  i1 = Ok (str "12") /\ i2 = Ok (str "123") /\ exists k, i3 = Err k.
Proof. vm_compute. repeat split. eexists; reflexivity. Qed.
Example decoder_max_bytes_doc :
  let D := max_decoder Utf8D in
  let '(s1, _, i1) := exact D (max_new rem_dec_new 3) (slice "foo") in
  i1 = Ok (str "foo") /\ item (exact D s1 (slice "hello")) = Err InvalidInput.
Proof. vm_compute. repeat split. Qed.

(** src/combinator.rs:1549-1562. *)
Example encoder_max_bytes_works :
  let E := max_encoder utf8_encoder in
  let '(s1, out, r) := start_all E (max_new utf8_enc_new 3) (str "foo") in
  r = Ok tt /\ out = b "foo" /\ item (start_all E s1 (str "hello")) = Err InvalidInput.
Proof. vm_compute. repeat split. Qed.

(** src/combinator.rs:1564-1584. *)
Definition slice_round {I} (D : Decoder (Slice (Length RemDec)) I)
    (x : Slice (Length RemDec) * Slice (Length RemDec) * res nat)
    : Slice (Length RemDec) * Slice (Length RemDec) * res nat :=
  let '(d0, d1, off) := x in
  match off with
  | Ok o0 =>
      match dec_decode D 50 (slice_set d0 1) (skipn o0 (b "fboaor")) (eos_new true) with
      | (d0', Ok n0) =>
          match dec_decode D 50 (slice_set d1 1) (skipn (o0 + n0) (b "fboaor")) (eos_new true) with
          | (d1', r) => (d0', d1', rmap (fun n => o0 + n0 + n) r)
          end
      | (d0', r) => (d0', d1, r)
      end
  | _ => x
  end.
Example decoder_slice_works :
  let D := slice_decoder (length_decoder Utf8D) in
  let s := slice_new (length_new rem_dec_new 3) in
  let '(d0, d1, off) := Nat.iter 3 (slice_round D) (s, s, Ok 0) in
  off = Ok 6 /\ snd (dec_finish D d0) = Ok (str "foo") /\ snd (dec_finish D d1) = Ok (str "bar").
Proof. vm_compute. repeat split. Qed.

(** src/combinator.rs:1586-1613; src/encode.rs:382-407. *)
Example encoder_slice_works :
  let E := slice_encoder utf8_encoder in
  let '(s0, r0) := enc_start E 50 (slice_new utf8_enc_new) (str "foobarbazqux") in
  let '(s1, o1, r1) := enc_encode E 50 (slice_set s0 3) (repeat x00 12) (eos_new true) in
  let '(s2, o2, r2) := enc_encode E 50 s1 (skipn 3 o1) (eos_new true) in
  let '(s3, o3, r3) := enc_encode E 50 (slice_set s2 3) o2 (eos_new true) in
  let '(s4, o4, r4) := enc_encode E 50 (slice_set s3 6) (skipn 3 o3) (eos_new true) in
  r0 = Ok tt /\ r1 = Ok 3 /\ enc_idle E s1 = false /\ sl_consumable s1 = 0%N
  /\ r2 = Ok 0 /\ slice_suspended s2 = true /\ r3 = Ok 3 /\ r4 = Ok 6
  /\ enc_idle E s4 = true
  /\ firstn 3 o1 ++ firstn 3 o3 ++ o4 = b "foobarbazqux".
Proof. vm_compute. repeat split. Qed.

(** src/combinator.rs:1615-1621; src/decode.rs:221-230. *)
Definition AndThenD := and_then_decoder U8Decoder (length_decoder Utf8D)
                         (fun n => length_new rem_dec_new n).
Example and_then_works :
  let '(s1, r1) := dec_decode AndThenD 50 (and_then_new u8d) (x03 :: b "foo") (eos_new false) in
  (exists n, r1 = Ok n) /\ snd (dec_finish AndThenD s1) = Ok (str "foo").
Proof. vm_compute. repeat split. eexists; reflexivity. Qed.
Example and_then_doc :
  item (exact AndThenD (and_then_new u8d) (rd (x03 :: b "foobar"))) = Ok (str "foo").
Proof. vm_compute. reflexivity. Qed.

(** src/combinator.rs:1623-1635; src/decode.rs:416-428. *)
Definition is_ok {A} (r : res A) : bool := match r with Ok _ => true | _ => false end.
Definition is_err {A} (r : res A) : bool := match r with Err _ => true | _ => false end.
Example maybe_eos_works :
  let D := maybe_decoder U16beDecoder in
  let s := maybe_new u16d in
  is_err (snd (dec_decode U16beDecoder 50 u16d [] (eos_new true))) = true
  /\ is_ok (snd (dec_decode D 50 s [] (eos_new true))) = true
  /\ (let '(s1, r1) := dec_decode D 50 s [x01] (eos_new false) in
      is_ok r1 = true /\ is_err (snd (dec_decode D 50 s1 [] (eos_new true))) = true)
  /\ is_err (snd (dec_decode D 50 s [x01] (eos_new true))) = true.
Proof. vm_compute. repeat split. Qed.

(** src/combinator.rs:1637-1646. *)
Example peekable_works :
  let D := peek_decoder (tuple3_decoder U8Decoder U8Decoder U8Decoder) in
  let '(s1, r1) := dec_decode D 50 (peek_new (u8d, u8d, u8d)) (b "foo") (eos_new false) in
  let '(s2, i2) := dec_finish D s1 in
  r1 = Ok 3 /\ peek s1 = Some (102, 111, 111)%N /\ i2 = Ok (102, 111, 111)%N /\ peek s2 = None.
Proof. vm_compute. repeat split. Qed.

(** src/decode.rs:130-138, 150-166, 308-322, 181-203 (the kind of the error), 437-446. *)
Example map_doc :
  item (exact (map_decoder U8Decoder (fun x => x * 2)%N) u8d (rd (bn [10]%N))) = Ok 20%N.
Proof. vm_compute. reflexivity. Qed.
Example try_map_doc :
  let D := try_map_decoder U8Decoder
             (fun x => if (x =? 0)%N then inr InvalidInput else inl (x * 2)%N) in
  let '(s1, _, i1) := exact D u8d (rd (bn [0]%N)) in
  i1 = Err InvalidInput /\ item (exact D s1 (rd (bn [4]%N))) = Ok 8%N.
Proof. vm_compute. repeat split. Qed.
Example omit_doc :
  let D := omit_decoder U8Decoder in
  let '(_, r1, i1) := exact D (mkOmit u8d true) (slice "foo") in
  i1 = Ok None /\ item (exact D (mkOmit u8d false) r1) = Ok (Some 102%N).
Proof. vm_compute. repeat split. Qed.
Example map_err_doc :
  item (exact (map_err_decoder U16beDecoder (fun e => e)) u16d (rd (bn [0]%N)))
  = Err UnexpectedEos.
Proof. vm_compute. reflexivity. Qed.
Example decode_from_bytes_works :
  snd (decode_from_bytes U16beDecoder 50 u16d (bn [0x12; 0x34]%N)) = Ok 0x1234%N.
Proof. vm_compute. reflexivity. Qed.

(** src/encode.rs:134-144, 160-177 (the kind of the error), 191-202, 215-230, 247-262, 356-371
    (without the removed [with_prefix]), 421-427. *)
Example with_item_doc :
  match with_item U8Encoder 50 num_enc_new 7%N with
  | Ok s => let '(s', w, r) := encode_all U8Encoder 50 s vec in
            r = Ok tt /\ wr_data w = bn [7]%N /\ enc_idle U8Encoder s' = true
  | _ => False
  end.
Proof. vm_compute. repeat split. Qed.
Example enc_map_err_doc :
  match with_item U8Encoder 50 num_enc_new 7%N with
  | Ok s => item (enc_encode (map_err_encoder U8Encoder (fun e => e)) 50 s [] (eos_new true))
            = Err UnexpectedEos
  | _ => False
  end.
Proof. vm_compute. reflexivity. Qed.
Example map_from_doc :
  let E := map_from_encoder U8Encoder (fun s : list N => N.of_nat (List.length s)) in
  let '(_, out, r) := start_all E num_enc_new (str "Hello World!") in
  r = Ok tt /\ out = bn [12]%N.
Proof. vm_compute. repeat split. Qed.
Example try_map_from_doc :
  let E := try_map_from_encoder U8Encoder
             (fun s : list N => if List.length s <=? 255 then inl (N.of_nat (List.length s))
                                else inr InvalidInput) in
  let '(_, out, r) := start_all E num_enc_new (str "Hello World!") in
  r = Ok tt /\ out = bn [12]%N.
Proof. vm_compute. repeat split. Qed.
Example optional_doc :
  let E := optional_encoder U8Encoder in
  let '(s1, out1, r1) := start_all E num_enc_new None in
  let '(_, out2, r2) := start_all E s1 (Some 9%N) in
  r1 = Ok tt /\ r2 = Ok tt /\ out1 ++ out2 = bn [9]%N.
Proof. vm_compute. repeat split. Qed.
Example pre_encode_doc :
  let E := pre_encoder (repeat_encoder U8Encoder) in
  let '(s1, r1) := enc_start E 50 (pre_new (repeat_new num_enc_new)) [0; 1; 2]%N in
  let '(_, w, r2) := encode_all E 50 s1 vec in
  r1 = Ok tt /\ pre_enc_exact s1 = Ok 3%N /\ r2 = Ok tt /\ wr_data w = bn [0; 1; 2]%N.
Proof. vm_compute. repeat split. Qed.
Example encode_into_bytes_works :
  snd (encode_into_bytes U16beEncoder 50 num_enc_new 0x1234%N) = Ok (bn [0x12; 0x34]%N).
Proof. vm_compute. reflexivity. Qed.

(** src/io.rs:470-480. *)
Example decode_from_read_buf_works :
  let '(buf, _, r) := rb_fill (rb_new (repeat x00 1024)) (slice "foo") in
  let '(s, _, r') := decode_from_read_buf Utf8D 50 rem_dec_new buf in
  r = Ok tt /\ rb_len buf = Ok 3 /\ rb_state buf = StEos
  /\ r' = Ok tt /\ snd (dec_finish Utf8D s) = Ok (str "foo").
Proof. vm_compute. repeat split. Qed.
(** src/io.rs:482-493: [read_to_end] reads until it gets nothing. *)
Example read_from_read_buf_works :
  let '(buf, _, r) := rb_fill (rb_new (repeat x00 1024)) (slice "foo") in
  let '(buf1, d1) := rb_read buf 32 in
  let '(buf2, d2) := rb_read buf1 32 in
  r = Ok tt /\ rb_len buf = Ok 3 /\ rb_state buf = StEos
  /\ d1 = Ok (b "foo") /\ d2 = Ok [] /\ rb_len buf2 = Ok 0.
Proof. vm_compute. repeat split. Qed.
(** src/io.rs:495-508. *)
Example encode_to_write_buf_works :
  match with_item utf8_encoder 50 utf8_enc_new (str "foo") with
  | Ok s =>
      let '(_, buf, r) := encode_to_write_buf utf8_encoder 50 s (wb_new (repeat x00 1024)) in
      let '(buf', w, r', _) := wb_flush buf vec in
      r = Ok tt /\ wb_len buf = Ok 3 /\ r' = Ok tt /\ wb_len buf' = Ok 0
      /\ wb_state buf' = StNormal /\ wr_data w = b "foo"
  | _ => False
  end.
Proof. vm_compute. repeat split. Qed.
(** src/io.rs:510-521. *)
Example write_to_write_buf_works :
  let '(buf, r) := wb_write (wb_new (repeat x00 1024)) (b "foo") in
  let '(buf', w, r', _) := wb_flush buf vec in
  r = Ok 3 /\ wb_len buf = Ok 3 /\ r' = Ok tt /\ wb_len buf' = Ok 0
  /\ wb_state buf' = StNormal /\ wr_data w = b "foo".
Proof. vm_compute. repeat split. Qed.

(** src/json_codec.rs:166-175, 177-186 and src/bincode_codec.rs:156-167, with stand-ins for the external crates: the
    "parser" returns the bytes it reads, the "serialiser" writes "[1,2,3]" piece by piece. *)
Example json_decoder_works :
  let D := json_decoder (fun w => (Some w, List.length w)) in
  let '(s1, r1) := dec_decode D 50 json_dec_new (b "[1, 2") (eos_new false) in
  let '(s2, r2) := dec_decode D 50 s1 (b ", 3]") (eos_new true) in
  is_ok r1 = true /\ is_ok r2 = true /\ snd (dec_finish D s2) = Ok (b "[1, 2, 3]").
Proof. vm_compute. repeat split. Qed.
Definition to_writer (_ : unit) : list (list byte) * bool :=
  (List.map b ["["; "1"; ","; "2"; ","; "3"; "]"]%string, true).
Example json_encoder_works :
  let E := json_encoder to_writer in
  match with_item E 50 json_enc_new tt with
  | Ok s =>
      let '(s1, o1, r1) := enc_encode E 50 s (repeat x00 2) (eos_new false) in
      let '(_, o2, r2) := enc_encode E 50 s1 (repeat x00 5) (eos_new true) in
      r1 = Ok 2 /\ r2 = Ok 5 /\ o1 ++ o2 = b "[1,2,3]"
  | _ => False
  end.
Proof. vm_compute. repeat split. Qed.
Example bincode_works :
  let '(_, out, r) := start_all (bincode_encoder to_writer) bincode_enc_new tt in
  r = Ok tt /\ item (exact (bincode_decoder (fun w => (Some w, List.length w))) bincode_dec_new (rd out))
               = Ok (b "[1,2,3]").
Proof. vm_compute. repeat split. Qed.

(** src/null.rs:64-80. *)
Example null_works :
  dec_decode null_decoder 50 tt [x01] (eos_new true) = (tt, Ok 0)
  /\ dec_finish null_decoder tt = (tt, Ok tt)
  /\ enc_start null_encoder 50 tt tt = (tt, Ok tt) /\ enc_idle null_encoder tt = true
  /\ item (enc_encode null_encoder 50 tt (repeat x00 10) (eos_new true)) = Ok 0.
Proof. vm_compute. repeat split. Qed.

(** src/padding.rs:127-145. *)
Example padding_encoder_works :
  match with_item pad_encoder 50 None x03 with
  | Ok s => let '(s', out, r) := enc_encode pad_encoder 50 s (repeat x00 8) (eos_new true) in
            is_ok r = true /\ out = repeat x03 8 /\ enc_idle pad_encoder s' = true
  | _ => False
  end.
Proof. vm_compute. repeat split. Qed.
Example padding_decoder_works :
  is_ok (item (exact pad_decoder (pad_dec_new None) (rd (repeat x00 8)))) = true
  /\ (let '(s1, _, i1) := exact pad_decoder (pad_dec_new (Some x01)) (rd (repeat x01 8)) in
      is_ok i1 = true /\ is_err (item (exact pad_decoder s1 (rd (repeat x00 8)))) = true).
Proof. vm_compute. repeat split. Qed.

(** src/slice.rs:71-79. *)
Example owned_slice_works :
  let o := mkOwnedSlice (bn [1; 2; 3; 4]%N) 1 3 in
  os_as_ref vec_box o = Ok (bn [2; 3]%N)
  /\ rmap (@os_inner _) (os_as_mut_write vec_box o (bn [9; 3]%N)) = Ok (bn [1; 9; 3; 4]%N).
Proof. vm_compute. repeat split. Qed.

(** src/tuple.rs:149-165. *)
Example tuple_works :
  item (exact (tuple2_decoder U8Decoder U8Decoder) (u8d, u8d) (slice "foo")) = Ok (102, 111)%N
  /\ (let '(_, out, r) := start_all (tuple2_encoder U8Encoder U8Encoder)
                            (num_enc_new, num_enc_new) (0, 1)%N in
      r = Ok tt /\ out = bn [0; 1]%N).
Proof. vm_compute. repeat split. Qed.

(** src/fixnum.rs:1588-1698, [assert_encode_decode!]. *)
Definition enc_dec {T} (E : Encoder NumEnc T) (D : Decoder NumDec T) (i : T) (bytes : list N)
    : Prop :=
  (let '(_, out, r) := start_all E num_enc_new i in r = Ok tt /\ out = bn bytes)
  /\ item (exact D (num_dec_new (List.length bytes)) (rd (bn bytes))) = Ok i.
Example fixnum_works :
  enc_dec U8Encoder U8Decoder 7%N [7]%N
  /\ enc_dec I8Encoder I8Decoder (-1)%Z [255]%N
  /\ enc_dec U16beEncoder U16beDecoder 0x0102%N [1; 2]%N
  /\ enc_dec U16leEncoder U16leDecoder 0x0102%N [2; 1]%N
  /\ enc_dec I16beEncoder I16beDecoder (-2)%Z [0xFF; 0xFE]%N
  /\ enc_dec I16leEncoder I16leDecoder (-2)%Z [0xFE; 0xFF]%N
  /\ enc_dec U24beEncoder U24beDecoder 0x010203%N [1; 2; 3]%N
  /\ enc_dec U24leEncoder U24leDecoder 0x010203%N [3; 2; 1]%N
  /\ enc_dec U32beEncoder U32beDecoder 0x01020304%N [1; 2; 3; 4]%N
  /\ enc_dec U32leEncoder U32leDecoder 0x01020304%N [4; 3; 2; 1]%N
  /\ enc_dec I32beEncoder I32beDecoder (-2)%Z [0xFF; 0xFF; 0xFF; 0xFE]%N
  /\ enc_dec I32leEncoder I32leDecoder (-2)%Z [0xFE; 0xFF; 0xFF; 0xFF]%N
  /\ enc_dec U40beEncoder U40beDecoder 0x0102030405%N [1; 2; 3; 4; 5]%N
  /\ enc_dec U40leEncoder U40leDecoder 0x0102030405%N [5; 4; 3; 2; 1]%N
  /\ enc_dec U48beEncoder U48beDecoder 0x010203040506%N [1; 2; 3; 4; 5; 6]%N
  /\ enc_dec U48leEncoder U48leDecoder 0x010203040506%N [6; 5; 4; 3; 2; 1]%N
  /\ enc_dec U56beEncoder U56beDecoder 0x01020304050607%N [1; 2; 3; 4; 5; 6; 7]%N
  /\ enc_dec U56leEncoder U56leDecoder 0x01020304050607%N [7; 6; 5; 4; 3; 2; 1]%N
  /\ enc_dec U64beEncoder U64beDecoder 0x0102030405060708%N [1; 2; 3; 4; 5; 6; 7; 8]%N
  /\ enc_dec U64leEncoder U64leDecoder 0x0102030405060708%N [8; 7; 6; 5; 4; 3; 2; 1]%N
  /\ enc_dec I64beEncoder I64beDecoder (-2)%Z
       [0xFF; 0xFF; 0xFF; 0xFF; 0xFF; 0xFF; 0xFF; 0xFE]%N
  /\ enc_dec I64leEncoder I64leDecoder (-2)%Z
       [0xFE; 0xFF; 0xFF; 0xFF; 0xFF; 0xFF; 0xFF; 0xFF]%N.
Proof. vm_compute. repeat split. Qed.
(** Floating point items are bit patterns: 0xC2F6CCCD is -123.4f32, 0xC05EDD2F1A9FBE77 is
    -123.456f64. *)
Example fixnum_float_works :
  enc_dec F32beEncoder F32beDecoder 0xC2F6CCCD%N [194; 246; 204; 205]%N
  /\ enc_dec F32leEncoder F32leDecoder 0xC2F6CCCD%N [205; 204; 246; 194]%N
  /\ enc_dec F64beEncoder F64beDecoder 0xC05EDD2F1A9FBE77%N [192; 94; 221; 47; 26; 159; 190; 119]%N
  /\ enc_dec F64leEncoder F64leDecoder 0xC05EDD2F1A9FBE77%N [119; 190; 159; 26; 47; 221; 94; 192]%N.
Proof. vm_compute. repeat split. Qed.
