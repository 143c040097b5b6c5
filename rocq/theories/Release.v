(** * Release builds

    The functions of the crate that do arithmetic on [u64] or [usize], compiled without overflow checks (the default of
    [cargo build --release]): sums and differences wrap around instead of panicking.  Index checks, [assert!] and the
    capacity check of [Vec::reserve_exact] remain.  Everything else in Prim.v, Comb.v and Tuple.v has no arithmetic that
    can leave its type: offsets grow by at most the size of a buffer, and the differences in src/bytes.rs (the length of
    the container minus the offset in it) and src/io.rs (the ends of a window) do not underflow in any state that calls
    can reach (C08, C09, C42, C43), given containers whose length does not change between calls. *)
From Verif Require Export Iface Prim Comb Tuple Utf8.
Set Implicit Arguments.

(** Wrapping addition and subtraction of [u64] ([a], [b] are below 2^64). *)
Definition wadd (a b : N) : N := if (a + b <=? u64_max)%N then (a + b)%N else (a + b - (u64_max + 1))%N.
Definition wsub (a b : N) : N := if (b <=? a)%N then (a - b)%N else (a + (u64_max + 1) - b)%N.

(** [ByteCount::add_for_decoding], [add_for_encoding]: src/byte_count.rs:52-84. *)
Definition w_add_for_decoding (a b : ByteCount) : ByteCount :=
  match a, b with
  | Finite x, Finite y => Finite (wadd x y)
  | Infinite, _ => Infinite
  | _, Infinite => Infinite
  | Unknown, Unknown => Unknown
  | Finite x, Unknown => if (x =? 0)%N then Unknown else Finite x
  | Unknown, Finite y => if (y =? 0)%N then Unknown else Finite y
  end.
Definition w_add_for_encoding (a b : ByteCount) : ByteCount :=
  match a, b with
  | Finite x, Finite y => Finite (wadd x y)
  | Infinite, _ => Infinite
  | _, Infinite => Infinite
  | _, Unknown => Unknown
  | Unknown, _ => Unknown
  end.
(** [Eos::back]: src/eos.rs:48-54. *)
Definition w_eos_back (e : Eos) (n : N) : Eos :=
  match e with Finite m => Finite (wadd m n) | _ => e end.

(** [RemainingBytesDecoder::decode]: src/bytes.rs:303-314.  The sum given to [reserve_exact] wraps around; [reserve_exact] itself
    checks. *)
Definition w_rem_decode (st : RemDec) (buf : list byte) (e : Eos) : RemDec * res nat :=
  if rm_eos st then (st, Ok 0)
  else
    let go := (mkRemDec (rm_buf st ++ buf) (is_reached e), Ok (length buf)) in
    match bc_to_u64 (remaining_bytes e) with
    | Some remaining =>
        if (len (rm_buf st) + wadd (len buf) remaining <=? isize_max)%N then go else (st, Panic)
    | None => go
    end.
Definition w_rem_decoder : Decoder RemDec (list byte) :=
  {| dec_decode := fun _ => w_rem_decode;
     dec_finish := dec_finish rem_decoder; dec_req := dec_req rem_decoder; dec_idle := dec_idle rem_decoder |}.

(** [Length]: src/combinator.rs:723-735, 755-776. *)
Definition w_length_decode {S I} (D : Decoder S I) (fuel : nat) (st : Length S)
    (buf : list byte) (e : Eos) : Length S * res nat :=
  let limit := N.min (len buf) (ln_remaining st) in
  let required := (ln_remaining st - limit)%N in
  let expected_eos := eos_with_remaining (Finite required) in
  let go :=
    let '(s', r) := dec_decode D fuel (ln_inner st) (firstn (N.to_nat limit) buf) expected_eos in
    match r with
    | Ok size => (mkLength s' (ln_expected st) (wsub (ln_remaining st) (N.of_nat size)), Ok size)
    | r' => (mkLength s' (ln_expected st) (ln_remaining st), r')
    end in
  match bc_to_u64 (remaining_bytes e) with
  | Some remaining => if (required <=? wadd remaining (len buf))%N then go else (st, Err UnexpectedEos)
  | None => go
  end.
Definition w_length_decoder {S I} (D : Decoder S I) : Decoder (Length S) I :=
  {| dec_decode := w_length_decode D;
     dec_finish := dec_finish (length_decoder D); dec_req := dec_req (length_decoder D); dec_idle := dec_idle (length_decoder D) |}.
Definition w_length_encode {S I} (E : Encoder S I) (fuel : nat) (st : Length S)
    (buf : list byte) (e : Eos) : Length S * list byte * res nat :=
  let short := (len buf <? ln_remaining st)%N in
  if short && is_reached e then (st, buf, Err UnexpectedEos)
  else
    let limit := if short then length buf else N.to_nat (ln_remaining st) in
    let e' := if short then e else eos_new true in
    let '(s', b', r) := enc_encode E fuel (ln_inner st) (firstn limit buf) e' in
    let buf' := b' ++ skipn limit buf in
    match r with
    | Ok size =>
        let rem := wsub (ln_remaining st) (N.of_nat size) in
        if enc_idle E s' && negb (rem =? 0)%N
        then (mkLength s' (ln_expected st) rem, buf', Err InvalidInput)
        else (mkLength s' (ln_expected st) rem, buf', Ok size)
    | r' => (mkLength s' (ln_expected st) (ln_remaining st), buf', r')
    end.
Definition w_length_encoder {S I} (E : Encoder S I) : Encoder (Length S) I :=
  {| enc_encode := w_length_encode E;
     enc_start := enc_start (length_encoder E); enc_req := enc_req (length_encoder E); enc_idle := enc_idle (length_encoder E) |}.

(** [MaxBytes]: src/combinator.rs:1009-1032, 1050-1060. *)
Definition w_max_check {S} (st : MaxBytes S) (buf : list byte) (e : Eos) : res unit :=
  let consumable := wsub (mx_max st) (mx_consumed st) in
  match remaining_bytes e with
  | Infinite => Err InvalidInput
  | Unknown => if (len buf <=? consumable)%N then Ok tt else Err InvalidInput
  | Finite remaining => if (wadd (len buf) remaining <=? consumable)%N then Ok tt else Err InvalidInput
  end.
Definition w_max_decode {S I} (D : Decoder S I) (fuel : nat) (st : MaxBytes S)
    (buf : list byte) (e : Eos) : MaxBytes S * res nat :=
  match w_max_check st buf e with
  | Ok _ =>
      let '(s', r) := dec_decode D fuel (mx_inner st) buf e in
      match r with
      | Ok size => (mkMax s' (wadd (mx_consumed st) (N.of_nat size)) (mx_max st), Ok size)
      | r' => (mkMax s' (mx_consumed st) (mx_max st), r')
      end
  | x => (st, rcast x)
  end.
Definition w_max_decoder {S I} (D : Decoder S I) : Decoder (MaxBytes S) I :=
  {| dec_decode := w_max_decode D;
     dec_finish := dec_finish (max_decoder D); dec_req := dec_req (max_decoder D); dec_idle := dec_idle (max_decoder D) |}.
Definition w_max_encode {S I} (E : Encoder S I) (fuel : nat) (st : MaxBytes S)
    (buf : list byte) (e : Eos) : MaxBytes S * list byte * res nat :=
  let '(s', buf', r) := enc_encode E fuel (mx_inner st) buf e in
  match r with
  | Ok size =>
      let c := wadd (mx_consumed st) (N.of_nat size) in
      if (c <=? mx_max st)%N
      then (mkMax s' (if enc_idle E s' then 0%N else c) (mx_max st), buf', Ok size)
      else (mkMax s' c (mx_max st), buf', Err InvalidInput)
  | r' => (mkMax s' (mx_consumed st) (mx_max st), buf', r')
  end.
Definition w_max_encoder {S I} (E : Encoder S I) : Encoder (MaxBytes S) I :=
  {| enc_encode := w_max_encode E;
     enc_start := enc_start (max_encoder E); enc_req := enc_req (max_encoder E); enc_idle := enc_idle (max_encoder E) |}.

(** [Slice]: src/combinator.rs:1192-1198, 1215-1221. *)
Definition w_slice_decode {S I} (D : Decoder S I) (fuel : nat) (st : Slice S)
    (buf : list byte) (e : Eos) : Slice S * res nat :=
  let limit := N.min (len buf) (sl_consumable st) in
  let '(s', r) := dec_decode D fuel (sl_inner st) (firstn (N.to_nat limit) buf) (w_eos_back e (len buf - limit)) in
  match r with
  | Ok size => (mkSlice s' (wsub (sl_consumable st) (N.of_nat size)), Ok size)
  | r' => (mkSlice s' (sl_consumable st), r')
  end.
Definition w_slice_decoder {S I} (D : Decoder S I) : Decoder (Slice S) I :=
  {| dec_decode := w_slice_decode D;
     dec_finish := dec_finish (slice_decoder D); dec_req := dec_req (slice_decoder D); dec_idle := dec_idle (slice_decoder D) |}.
Definition w_slice_encode {S I} (E : Encoder S I) (fuel : nat) (st : Slice S)
    (buf : list byte) (e : Eos) : Slice S * list byte * res nat :=
  let limit := N.to_nat (N.min (len buf) (sl_consumable st)) in
  let '(s', b', r) := enc_encode E fuel (sl_inner st) (firstn limit buf) (w_eos_back e (N.of_nat (length buf - limit))) in
  let buf' := b' ++ skipn limit buf in
  match r with
  | Ok size => (mkSlice s' (wsub (sl_consumable st) (N.of_nat size)), buf', Ok size)
  | r' => (mkSlice s' (sl_consumable st), buf', r')
  end.
Definition w_slice_encoder {S I} (E : Encoder S I) : Encoder (Slice S) I :=
  {| enc_encode := w_slice_encode E;
     enc_start := enc_start (slice_encoder E); enc_req := enc_req (slice_encoder E); enc_idle := enc_idle (slice_encoder E) |}.

(** Tuples: [requiring_bytes] adds up (src/tuple.rs:50-53, 115-118). *)
Definition w_dp_one {S I} (D : Decoder S I) : DecParts S I :=
  {| dp_decode := dp_decode (dp_one D); dp_finish := dp_finish (dp_one D); dp_idle := dp_idle (dp_one D);
     dp_req := fun acc s => rmap (w_add_for_decoding acc) (dec_req D s) |}.
Definition w_dp_snoc {S I S' I'} (P : DecParts S I) (D : Decoder S' I') : DecParts (S * S') (I * I') :=
  {| dp_decode := dp_decode (dp_snoc P D); dp_finish := dp_finish (dp_snoc P D); dp_idle := dp_idle (dp_snoc P D);
     dp_req := fun acc s =>
       rbind (dp_req P acc (fst s)) (fun q => rmap (w_add_for_decoding q) (dec_req D (snd s))) |}.
Definition w_ep_one {S I} (E : Encoder S I) : EncParts S I :=
  {| ep_encode := ep_encode (ep_one E); ep_start := ep_start (ep_one E); ep_idle := ep_idle (ep_one E);
     ep_req := fun acc s => rmap (w_add_for_encoding acc) (enc_req E s) |}.
Definition w_ep_snoc {S I S' I'} (P : EncParts S I) (E : Encoder S' I') : EncParts (S * S') (I * I') :=
  {| ep_encode := ep_encode (ep_snoc P E); ep_start := ep_start (ep_snoc P E); ep_idle := ep_idle (ep_snoc P E);
     ep_req := fun acc s =>
       rbind (ep_req P acc (fst s)) (fun q => rmap (w_add_for_encoding q) (enc_req E (snd s))) |}.

(** [exact_requiring_bytes] of tuples: src/tuple.rs:124-131. *)
Definition w_exact_add (a b : res N) : res N := rbind a (fun x => rmap (wadd x) b).
Definition w_exact_one {S} (f : S -> res N) (s : S) : res N := w_exact_add (Ok 0%N) (f s).
Definition w_exact_snoc {S S'} (g : S -> res N) (f : S' -> res N) (s : S * S') : res N := w_exact_add (g (fst s)) (f (snd s)).

(** ** The same composition in a debug and in a release build *)
Inductive built : forall S I : Type, Decoder S I -> Decoder S I -> Prop :=
(** primitives, and own implementations that do not overflow *)
| bt_same : forall S I (D : Decoder S I), built D D
| bt_rest : built rem_decoder w_rem_decoder
| bt_map : forall S I T (D D' : Decoder S I) (f : I -> T), built D D' -> built (map_decoder D f) (map_decoder D' f)
| bt_try_map : forall S I T (D D' : Decoder S I) (f : I -> T + ErrorKind), built D D' -> built (try_map_decoder D f) (try_map_decoder D' f)
| bt_map_err : forall S I (D D' : Decoder S I) f, built D D' -> built (map_err_decoder D f) (map_err_decoder D' f)
| bt_utf8 : forall S (D D' : Decoder S (list byte)), built D D' -> built (utf8_decoder D) (utf8_decoder D')
| bt_and_then : forall S0 S1 I0 I1 (D0 D0' : Decoder S0 I0) (D1 D1' : Decoder S1 I1) f,
    built D0 D0' -> built D1 D1' -> built (and_then_decoder D0 D1 f) (and_then_decoder D0' D1' f)
| bt_omit : forall S I (D D' : Decoder S I), built D D' -> built (omit_decoder D) (omit_decoder D')
| bt_collect : forall S I (D D' : Decoder S I), built D D' -> built (collect_decoder D) (collect_decoder D')
| bt_collectn : forall S I (D D' : Decoder S I), built D D' -> built (collectn_decoder D) (collectn_decoder D')
| bt_length : forall S I (D D' : Decoder S I), built D D' -> built (length_decoder D) (w_length_decoder D')
| bt_max : forall S I (D D' : Decoder S I), built D D' -> built (max_decoder D) (w_max_decoder D')
| bt_slice : forall S I (D D' : Decoder S I), built D D' -> built (slice_decoder D) (w_slice_decoder D')
| bt_peek : forall S I (D D' : Decoder S I), built D D' -> built (peek_decoder D) (peek_decoder D')
| bt_maybe : forall S I (D D' : Decoder S I), built D D' -> built (maybe_decoder D) (maybe_decoder D')
| bt_tuple : forall S I (P P' : DecParts S I), built_parts P P' -> built (tuple_of_dec_parts P) (tuple_of_dec_parts P')
with built_parts : forall S I : Type, DecParts S I -> DecParts S I -> Prop :=
| btp_one : forall S I (D D' : Decoder S I), built D D' -> built_parts (dp_one D) (w_dp_one D')
| btp_snoc : forall S T I J (P P' : DecParts S I) (D D' : Decoder T J),
    built_parts P P' -> built D D' -> built_parts (dp_snoc P D) (w_dp_snoc P' D').

Inductive ebuilt : forall S I : Type, Encoder S I -> Encoder S I -> Prop :=
| ebt_same : forall S I (E : Encoder S I), ebuilt E E
| ebt_map_from : forall S I T (E E' : Encoder S I) (f : T -> I), ebuilt E E' -> ebuilt (map_from_encoder E f) (map_from_encoder E' f)
| ebt_try_map_from : forall S I T (E E' : Encoder S I) (f : T -> I + ErrorKind),
    ebuilt E E' -> ebuilt (try_map_from_encoder E f) (try_map_from_encoder E' f)
| ebt_map_err : forall S I (E E' : Encoder S I) f, ebuilt E E' -> ebuilt (map_err_encoder E f) (map_err_encoder E' f)
| ebt_optional : forall S I (E E' : Encoder S I), ebuilt E E' -> ebuilt (optional_encoder E) (optional_encoder E')
| ebt_repeat : forall S I (E E' : Encoder S I), ebuilt E E' -> ebuilt (repeat_encoder E) (repeat_encoder E')
| ebt_length : forall S I (E E' : Encoder S I), ebuilt E E' -> ebuilt (length_encoder E) (w_length_encoder E')
| ebt_max : forall S I (E E' : Encoder S I), ebuilt E E' -> ebuilt (max_encoder E) (w_max_encoder E')
| ebt_pre : forall S I (E E' : Encoder S I), ebuilt E E' -> ebuilt (pre_encoder E) (pre_encoder E')
| ebt_slice : forall S I (E E' : Encoder S I), ebuilt E E' -> ebuilt (slice_encoder E) (w_slice_encoder E')
| ebt_last : forall S I (E E' : Encoder S I), ebuilt E E' -> ebuilt (last_encoder E) (last_encoder E')
| ebt_tuple : forall S I (P P' : EncParts S I), ebuilt_parts P P' -> ebuilt (tuple_of_enc_parts P) (tuple_of_enc_parts P')
with ebuilt_parts : forall S I : Type, EncParts S I -> EncParts S I -> Prop :=
| ebtp_one : forall S I (E E' : Encoder S I), ebuilt E E' -> ebuilt_parts (ep_one E) (w_ep_one E')
| ebtp_snoc : forall S T I J (P P' : EncParts S I) (E E' : Encoder T J),
    ebuilt_parts P P' -> ebuilt E E' -> ebuilt_parts (ep_snoc P E) (w_ep_snoc P' E').
