(** * The [Decode], [Encode] and [SizedEncode] traits and their helper macros. *)
From Verif Require Export Base.
Set Implicit Arguments.

(** [trait Decode]: src/decode.rs:9-84.  A value of this record is an implementation of
    the trait for a Rust type whose values are modelled by [S].  A method taking
    [&mut self] returns the new state, whatever the result.
    - [dec_decode fuel s buf eos]: src/decode.rs:41 (the fuel bounds loops inside the
      call; it does not exist in the code);
    - [dec_finish]: src/decode.rs:57 ([finish_decoding]);
    - [dec_req]: src/decode.rs:71 ([requiring_bytes]; a result because the sum of
      byte counts can overflow);
    - [dec_idle]: src/decode.rs:80 ([is_idle]).
    The forwarding implementations for [&mut D] and [Box<D>] (src/decode.rs:85-122)
    behave as [D] itself and are not represented separately. *)
Record Decoder (S I : Type) := mkDecoder {
  dec_decode : nat -> S -> list byte -> Eos -> S * res nat;
  dec_finish : S -> S * res I;
  dec_req : S -> res ByteCount;
  dec_idle : S -> bool
}.

(** [trait Encode]: src/encode.rs:9-72.
    - [enc_encode fuel s buf eos] returns the new state, the new content of the buffer
      and the result (src/encode.rs:43);
    - [enc_start]: src/encode.rs:60 ([start_encoding]); it takes fuel because
      [pre_encode] runs a loop there;
    - [enc_req]: src/encode.rs:65, [enc_idle]: src/encode.rs:70.
    Forwarding for [&mut E] and [Box<E>] (src/encode.rs:73-110, 117-126) as above. *)
Record Encoder (S I : Type) := mkEncoder {
  enc_encode : nat -> S -> list byte -> Eos -> S * list byte * res nat;
  enc_start : nat -> S -> I -> S * res unit;
  enc_req : S -> res ByteCount;
  enc_idle : S -> bool
}.

(** Outcome of [bytecodec_try_decode!]/[bytecodec_try_encode!] (src/macros.rs:14-79): go on with the next
    statement at a new offset, or return from the enclosing method. *)
Inductive tried (S : Type) :=
| TGo (s : S) (off : nat)
| TRet (s : S) (r : res nat).
Arguments TGo {S} s off.
Arguments TRet {S} s r.

(** [bytecodec_try_decode!]: src/macros.rs:54-79. *)
Definition try_decode {S I} (D : Decoder S I) (fuel : nat) (s : S) (off : nat)
    (buf : list byte) (e : Eos) : tried S :=
  if dec_idle D s then TGo s off
  else match slice_from off buf with
       | None => TRet s Panic
       | Some b =>
           match dec_decode D fuel s b e with
           | (s', Ok n) => if dec_idle D s' then TGo s' (off + n) else TRet s' (Ok (off + n))
           | (s', r) => TRet s' r
           end
       end.

(** [bytecodec_try_encode!]: src/macros.rs:14-39; also threads the buffer content. *)
Definition try_encode {S I} (E : Encoder S I) (fuel : nat) (s : S) (off : nat)
    (buf : list byte) (e : Eos) : tried S * list byte :=
  if enc_idle E s then (TGo s off, buf)
  else match slice_from off buf with
       | None => (TRet s Panic, buf)
       | Some b =>
           match enc_encode E fuel s b e with
           | (s', b', Ok n) =>
               (if enc_idle E s' then TGo s' (off + n) else TRet s' (Ok (off + n)),
                firstn off buf ++ b')
           | (s', b', r) => (TRet s' r, firstn off buf ++ b')
           end
       end.

(** [DecodeExt::decode_from_bytes]: src/decode.rs:447-451. *)
Definition decode_from_bytes {S I} (D : Decoder S I) (fuel : nat) (s : S) (buf : list byte)
    : S * res I :=
  match dec_decode D fuel s buf (eos_new true) with
  | (s', Ok size) =>
      if size =? length buf then dec_finish D s' else (s', Err InvalidInput)
  | (s', r) => (s', rcast r)
  end.

(** [EncodeExt::with_item]: src/encode.rs:145-152, for a given default state. *)
Definition with_item {S I} (E : Encoder S I) (fuel : nat) (default : S) (i : I) : res S :=
  match enc_start E fuel default i with
  | (s', Ok _) => Ok s'
  | (_, r) => rcast r
  end.

(** Size of the stack buffers of [decode_exact] (src/io.rs:31) and [encode_all]
    (src/io.rs:96). *)
Definition io_buf_size : nat := 1024.

(** ** [std::io::Read] and [std::io::Write] objects *)

(** The kinds of [std::io::Error] that the crate or [write_all] distinguish
    (src/error.rs:16, src/io.rs:206, 327, std's [write_all]). *)
Inductive IoErr := IoWouldBlock | IoUnexpectedEof | IoInterrupted | IoOther.

(** [From<std::io::Error> for Error]: src/error.rs:14-23. *)
Definition err_of_io (e : IoErr) : ErrorKind :=
  match e with IoUnexpectedEof => UnexpectedEos | _ => Other end.

(** A reader (the [Read] of src/io.rs:39 and 204): the bytes that are still to come and a plan of what the next [read]
    calls do: give at most [S n] bytes, return 0, or fail.  When the plan is used up every
    read gives as much as it can.  A read at the end of the data returns 0. *)
Inductive RdPlan := RdSome (n : nat) | RdZero | RdErr (e : IoErr).
Record Reader := mkReader { rd_data : list byte; rd_plan : list RdPlan }.

(** [reader.read(&mut b)] with [b.len() = k] (src/io.rs:39, 204); the bytes read, or an error. *)
Definition rd_read (r : Reader) (k : nat) : Reader * (list byte + IoErr) :=
  match rd_plan r with
  | [] => (mkReader (skipn k (rd_data r)) [], inl (firstn k (rd_data r)))
  | RdSome n :: p =>
      let m := Nat.min k (S n) in
      (mkReader (skipn m (rd_data r)) p, inl (firstn m (rd_data r)))
  | RdZero :: p => (mkReader (rd_data r) p, inl [])
  | RdErr e :: p => (mkReader (rd_data r) p, inr e)
  end.

(** A writer (the [Write] of src/io.rs:99 and 325): the bytes accepted so far and a plan of what the next [write] calls do. *)
Inductive WrPlan := WrSome (n : nat) | WrZero | WrErr (e : IoErr).
Record Writer := mkWriter { wr_data : list byte; wr_plan : list WrPlan }.

(** [writer.write(b)] (src/io.rs:325); the number of bytes accepted, or an error. *)
Definition wr_write (w : Writer) (b : list byte) : Writer * (nat + IoErr) :=
  match wr_plan w with
  | [] => (mkWriter (wr_data w ++ b) [], inl (length b))
  | WrSome n :: p =>
      let m := Nat.min (length b) (S n) in
      (mkWriter (wr_data w ++ firstn m b) p, inl m)
  | WrZero :: p => (mkWriter (wr_data w) p, inl 0)
  | WrErr e :: p => (mkWriter (wr_data w) p, inr e)
  end.

(** [std::io::Write::write_all] (std library): loops over [write], retries on
    [Interrupted], fails on 0.  Fuel: every round uses up a plan entry or all the data. *)
Fixpoint wr_write_all_loop (fuel : nat) (w : Writer) (b : list byte)
    : Writer * res unit :=
  match b with
  | [] => (w, Ok tt)
  | _ :: _ =>
      match fuel with
      | 0 => (w, OutOfFuel)
      | S fuel' =>
          match wr_write w b with
          | (w', inl 0) => (w', Err Other)
          | (w', inl n) => wr_write_all_loop fuel' w' (skipn n b)
          | (w', inr IoInterrupted) => wr_write_all_loop fuel' w' b
          | (w', inr e) => (w', Err (err_of_io e))
          end
      end
  end.
Definition wr_write_all (w : Writer) (b : list byte) : Writer * res unit :=
  wr_write_all_loop (S (length (wr_plan w))) w b.

(** The number of bytes [decode_exact] asks the reader for: src/io.rs:33-37. *)
Definition exact_ask (q : ByteCount) : nat :=
  match q with
  | Finite n => if (n <? N.of_nat io_buf_size)%N then N.to_nat n else io_buf_size
  | Infinite => io_buf_size
  | Unknown => 1
  end.

(** [IoDecodeExt::decode_exact]: src/io.rs:30-52.  [fuel] bounds the rounds of the loop,
    [ifuel] is passed to the decoder. *)
Fixpoint decode_exact {S I} (D : Decoder S I) (fuel ifuel : nat) (s : S) (r : Reader)
    : S * Reader * res I :=
  match fuel with
  | 0 => (s, r, OutOfFuel)
  | S fuel' =>
      match dec_req D s with
      | Ok q =>
          let ask := exact_ask q in
          let '(r', rd) := if ask =? 0 then (r, inl []) else rd_read r ask in
          match rd with
          | inr e => (s, r', Err (err_of_io e))
          | inl b =>
              let eos := if ask =? 0 then eos_new false else eos_new (length b =? 0) in
              match dec_decode D ifuel s b eos with
              | (s', Ok consumed) =>
                  if consumed =? length b then
                    if dec_idle D s' then
                      let '(s'', item) := dec_finish D s' in (s'', r', item)
                    else decode_exact D fuel' ifuel s' r'
                  else (s', r', Err InconsistentState)
              | (s', x) => (s', r', rcast x)
              end
          end
      | x => (s, r, rcast x)
      end
  end.

(** [IoEncodeExt::encode_all]: src/io.rs:95-105.  The stack buffer keeps the bytes of
    earlier rounds; [buf] is its current content. *)
Fixpoint encode_all_loop {S I} (E : Encoder S I) (fuel ifuel : nat) (s : S)
    (buf : list byte) (w : Writer) : S * Writer * res unit :=
  if enc_idle E s then (s, w, Ok tt)
  else match fuel with
  | 0 => (s, w, OutOfFuel)
  | S fuel' =>
      match enc_encode E ifuel s buf (eos_new false) with
      | (s', buf', Ok size) =>
          if size <=? length buf' then
            match wr_write_all w (firstn size buf') with
            | (w', Ok _) =>
                if negb (enc_idle E s') && (size =? 0) then (s', w', Err Other)
                else encode_all_loop E fuel' ifuel s' buf' w'
            | (w', x) => (s', w', rcast x)
            end
          else (s', w, Panic)
      | (s', _, x) => (s', w, rcast x)
      end
  end.
Definition encode_all {S I} (E : Encoder S I) (fuel : nat) (s : S) (w : Writer)
    : S * Writer * res unit :=
  encode_all_loop E fuel fuel s (repeat x00 io_buf_size) w.

(** [EncodeExt::encode_into_bytes]: src/encode.rs:428-447.  [vec![0; size]] is taken
    to succeed for a size up to [isize::MAX] and to panic above (capacity overflow).  A vector that
    grows byte by byte never gets longer than that: the memory is used up before, and the
    call does not return. *)
Definition encode_into_bytes {S I} (E : Encoder S I) (fuel : nat) (s : S) (i : I)
    : S * res (list byte) :=
  match enc_start E fuel s i with
  | (s1, Ok _) =>
      match enc_req E s1 with
      | Ok (Finite size) =>
          if (size <=? isize_max)%N then
            match enc_encode E fuel s1 (repeat x00 (N.to_nat size)) (eos_new true) with
            | (s2, buf, Ok _) =>
                if enc_idle E s2 then (s2, Ok buf) else (s2, Err InconsistentState)
            | (s2, _, x) => (s2, rcast x)
            end
          else (s1, Panic)
      | Ok Unknown =>
          match encode_all E fuel s1 (mkWriter [] []) with
          | (s2, w, Ok _) =>
              (s2, if (len (wr_data w) <=? isize_max)%N then Ok (wr_data w) else OutOfFuel)
          | (s2, _, x) => (s2, rcast x)
          end
      | Ok Infinite => (s1, Err InvalidInput)
      | x => (s1, rcast x)
      end
  | (s1, x) => (s1, rcast x)
  end.
