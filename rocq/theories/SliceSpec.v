(** * Slices and demultiplexing: specification. *)
From Verif Require Export Spec Comb.
Set Implicit Arguments.

(** ** Calls between two [set_consumable_bytes] *)

(** [decode] (with any buffer and hint), [finish_decoding], in any order and whatever they
    return; [used] is the number of bytes consumed. *)
Inductive slice_calls {S I} (D : Decoder S I) (st : Slice S) : N -> Slice S -> Prop :=
| sc_start : slice_calls D st 0 st
| sc_decode : forall used st1 fuel buf e st2 r,
    slice_calls D st used st1 -> dec_decode (slice_decoder D) fuel st1 buf e = (st2, r) ->
    slice_calls D st (used + match r with Ok n => N.of_nat n | _ => 0 end) st2
| sc_finish : forall used st1 st2 r,
    slice_calls D st used st1 -> dec_finish (slice_decoder D) st1 = (st2, r) ->
    slice_calls D st used st2.
Inductive slice_ecalls {S I} (E : Encoder S I) (st : Slice S) : N -> Slice S -> Prop :=
| se_start : slice_ecalls E st 0 st
| se_encode : forall used st1 fuel buf e st2 b r,
    slice_ecalls E st used st1 -> enc_encode (slice_encoder E) fuel st1 buf e = (st2, b, r) ->
    slice_ecalls E st (used + match r with Ok n => N.of_nat n | _ => 0 end) st2
| se_item : forall used st1 fuel i st2 r,
    slice_ecalls E st used st1 -> enc_start (slice_encoder E) fuel st1 i = (st2, r) ->
    slice_ecalls E st used st2.

(** ** The user loops: set a budget, use the codec, set the next budget, ... *)
Fixpoint feed_slices {S I} (D : Decoder S I) (fuel : nat) (st : Slice S) (input : list byte)
    (rounds : list (N * schedule)) : Slice S * list byte * res unit :=
  match rounds with
  | [] => (st, input, Ok tt)
  | (budget, sched) :: rounds' =>
      match feed (slice_decoder D) fuel (slice_set st budget) input sched with
      | (st', input', Ok _) => feed_slices D fuel st' input' rounds'
      | x => x
      end
  end.
Fixpoint drain_slices {S I} (E : Encoder S I) (fuel : nat) (st : Slice S) (out : list byte)
    (rounds : list (N * list (list byte))) : Slice S * list byte * res unit :=
  match rounds with
  | [] => (st, out, Ok tt)
  | (budget, bufs) :: rounds' =>
      match drain (slice_encoder E) fuel (slice_set st budget) out bufs with
      | (st', out', Ok _) => drain_slices E fuel st' out' rounds'
      | x => x
      end
  end.
(** How many bytes can be consumed (or written) in all rounds together. *)
Definition allowed (rounds : list (N * schedule)) : nat :=
  fold_right (fun r n => Nat.min (N.to_nat (fst r)) (offered (snd r)) + n) 0 rounds.
Definition allowed_out (rounds : list (N * list (list byte))) : nat :=
  fold_right (fun r n => Nat.min (N.to_nat (fst r)) (room (snd r)) + n) 0 rounds.

(** ** Demultiplexing *)

(** A segment: for which of the two decoders, and the bytes. *)
Definition segment := (bool * list byte)%type.
(** The bytes for one of the decoders. *)
Definition bytes_for (who : bool) (segs : list segment) : list byte :=
  concat (map (fun g => if Bool.eqb (fst g) who then snd g else []) segs).

(** The user's program: decode a header, pass the announced number of bytes to the
    decoder it names, and so on.  [plan] has, for each segment, a schedule for the header and one for
    the payload. *)
Fixpoint demux {S0 I0 S1 I1 Sh} (D0 : Decoder S0 I0) (D1 : Decoder S1 I1)
    (H : Decoder Sh (bool * N)) (fuel : nat) (h : Sh) (st0 : Slice S0) (st1 : Slice S1)
    (input : list byte) (plan : list (schedule * schedule))
    : Sh * Slice S0 * Slice S1 * list byte * res unit :=
  match plan with
  | [] => (h, st0, st1, input, Ok tt)
  | (hs, ps) :: plan' =>
      match feed H fuel h input hs with
      | (h1, input1, Ok _) =>
          match dec_finish H h1 with
          | (h2, Ok (who, n)) =>
              if who then
                match feed (slice_decoder D1) fuel (slice_set st1 n) input1 ps with
                | (st1', input2, Ok _) => demux D0 D1 H fuel h2 st0 st1' input2 plan'
                | (st1', input2, r) => (h2, st0, st1', input2, r)
                end
              else
                match feed (slice_decoder D0) fuel (slice_set st0 n) input1 ps with
                | (st0', input2, Ok _) => demux D0 D1 H fuel h2 st0' st1 input2 plan'
                | (st0', input2, r) => (h2, st0', st1, input2, r)
                end
          | (h2, r) => (h2, st0, st1, input1, rcast r)
          end
      | (h1, input1, r) => (h1, st0, st1, input1, r)
      end
  end.
(** [muxed header segs stream plan]: [stream] has each segment after its header, an encoding of the
    receiver and of the number of bytes; and [plan] has schedules that offer at least the bytes they are
    for (and possibly more). *)
Inductive muxed (header : format (bool * N)) : list segment -> list byte -> list (schedule * schedule) -> Prop :=
| mux_nil : muxed header [] [] []
| mux_cons : forall who p segs h rest hs ps plan,
    header h (who, len p) -> hs <> [] -> length h <= offered hs -> length p <= offered ps ->
    muxed header segs rest plan ->
    muxed header ((who, p) :: segs) (h ++ p ++ rest) ((hs, ps) :: plan).
