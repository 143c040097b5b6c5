(** * Basic values of the model: bytes, results, machine integers, slices,
      [ByteCount], [Eos].

    Everything here is executable; there are no proofs in this file. *)
From Coq Require Export List Arith NArith ZArith Bool.
From Coq Require Export Init.Byte Strings.Byte.
Export ListNotations.

Set Implicit Arguments.

(** [ErrorKind]: src/error.rs:26-55.  An [Error] (src/error.rs:7-8) is modelled by its
    kind only; the [trackable] history is dropped. *)
Inductive ErrorKind :=
| InvalidInput
| InconsistentState
| UnexpectedEos
| EncoderFull
| DecoderTerminated
| IncompleteDecoding
| Other.

(** Result of a call.  [Ok]/[Err] model [Result] (src/lib.rs, [bytecodec::Result]).
    [Panic]: the call panics (arithmetic overflow, slice index out of range,
    [unreachable!], capacity overflow).  [OutOfFuel]: the fuel of the model was
    used up, i.e. a loop of the code has not ended after that many rounds. *)
Inductive res (A : Type) :=
| Ok (a : A)
| Err (k : ErrorKind)
| Panic
| OutOfFuel.
Arguments Ok {A} a.
Arguments Err {A} k.
Arguments Panic {A}.
Arguments OutOfFuel {A}.

(** The [?] operator. *)
Definition rbind {A B} (r : res A) (f : A -> res B) : res B :=
  match r with
  | Ok a => f a
  | Err k => Err k
  | Panic => Panic
  | OutOfFuel => OutOfFuel
  end.

Definition rmap {A B} (f : A -> B) (r : res A) : res B := rbind r (fun a => Ok (f a)).

(** A failed result at another type ([Ok] does not occur when it is used). *)
Definition rcast {A B} (r : res A) : res B := rbind r (fun _ => Panic).

(** ** Machine integers *)

(** [u64::MAX] and (64 bit) [isize::MAX]. *)
Definition u64_max : N := 18446744073709551615.
Definition isize_max : N := 9223372036854775807.

(** Checked [u64] addition and subtraction: [None] = overflow panic of a debug build. *)
Definition u64_add (a b : N) : option N :=
  if (a + b <=? u64_max)%N then Some (a + b)%N else None.
Definition u64_sub (a b : N) : option N :=
  if (b <=? a)%N then Some (a - b)%N else None.
(** Checked [usize] subtraction on lengths. *)
Definition usize_sub (a b : nat) : option nat :=
  if b <=? a then Some (a - b) else None.

(** [buf.len() as u64]. *)
Definition len (b : list byte) : N := N.of_nat (length b).

(** ** Slices *)

(** [&b[off..]]: panics ([None]) if [off > b.len()]. *)
Definition slice_from {A} (off : nat) (b : list A) : option (list A) :=
  if off <=? length b then Some (skipn off b) else None.

(** [b[off..][..src.len()].copy_from_slice(src)] for [off + src.len() <= b.len()]. *)
Definition overwrite {A} (b : list A) (off : nat) (src : list A) : list A :=
  firstn off b ++ src ++ skipn (off + length src) b.

(** ** ByteCount: src/byte_count.rs:6-10 *)
Inductive ByteCount :=
| Finite (n : N)
| Infinite
| Unknown.

(** [ByteCount]'s derived [PartialEq]: src/byte_count.rs:4. *)
Definition bc_eqb (a b : ByteCount) : bool :=
  match a, b with
  | Finite x, Finite y => (x =? y)%N
  | Infinite, Infinite => true
  | Unknown, Unknown => true
  | _, _ => false
  end.

(** src/byte_count.rs:13-15, 18-20, 23-25, 30-36. *)
Definition bc_is_finite (a : ByteCount) : bool :=
  match a with Finite _ => true | _ => false end.
Definition bc_is_infinite (a : ByteCount) : bool := bc_eqb a Infinite.
Definition bc_is_unknown (a : ByteCount) : bool := bc_eqb a Unknown.
Definition bc_to_u64 (a : ByteCount) : option N :=
  match a with Finite n => Some n | _ => None end.

Definition opt_finite (o : option N) : res ByteCount :=
  match o with Some n => Ok (Finite n) | None => Panic end.

(** [ByteCount::add_for_decoding]: src/byte_count.rs:52-63, the rows in order. *)
Definition add_for_decoding (a b : ByteCount) : res ByteCount :=
  match a, b with
  | Finite x, Finite y => opt_finite (u64_add x y)
  | Infinite, _ => Ok Infinite
  | _, Infinite => Ok Infinite
  | Unknown, Unknown => Ok Unknown
  | Finite x, Unknown => if (x =? 0)%N then Ok Unknown else Ok (Finite x)
  | Unknown, Finite y => if (y =? 0)%N then Ok Unknown else Ok (Finite y)
  end.

(** [ByteCount::add_for_encoding]: src/byte_count.rs:76-84. *)
Definition add_for_encoding (a b : ByteCount) : res ByteCount :=
  match a, b with
  | Finite x, Finite y => opt_finite (u64_add x y)
  | Infinite, _ => Ok Infinite
  | _, Infinite => Ok Infinite
  | _, Unknown => Ok Unknown
  | Unknown, _ => Ok Unknown
  end.

(** [PartialOrd::partial_cmp]: src/byte_count.rs:86-96. *)
Definition bc_partial_cmp (a b : ByteCount) : option comparison :=
  match a, b with
  | Finite x, Finite y => Some (N.compare x y)
  | Unknown, _ => None
  | _, Unknown => None
  | Infinite, Infinite => Some Eq
  | Infinite, _ => Some Gt
  | _, Infinite => Some Lt
  end.

(** [Default]: src/byte_count.rs:97-102. *)
Definition bc_default : ByteCount := Unknown.

(** ** Eos: src/eos.rs:5 ([struct Eos(ByteCount)]) *)
Definition Eos := ByteCount.

(** [Eos::new]: src/eos.rs:8-14. *)
Definition eos_new (reached : bool) : Eos := if reached then Finite 0 else Unknown.
(** [Eos::with_remaining_bytes]: src/eos.rs:18-20. *)
Definition eos_with_remaining (n : ByteCount) : Eos := n.
(** [Eos::is_reached]: src/eos.rs:23-25. *)
Definition is_reached (e : Eos) : bool := bc_eqb e (Finite 0).
(** [Eos::remaining_bytes]: src/eos.rs:28-30. *)
Definition remaining_bytes (e : Eos) : ByteCount := e.
(** [Eos::back]: src/eos.rs:48-54; [None] = overflow panic. *)
Definition eos_back (e : Eos) (n : N) : option Eos :=
  match e with
  | Finite m => option_map Finite (u64_add m n)
  | _ => Some e
  end.
