(** * Longer sessions with one codec: what a user does and observes. *)
From Verif Require Export Spec.
Set Implicit Arguments.

(** Some call of the schedule tells the decoder that nothing follows: the hint is exact and
    the call offers all of the [n] bytes that are left. *)
Fixpoint announced (n : nat) (sched : schedule) : bool :=
  match sched with
  | [] => false
  | (k, h) :: sched' =>
      match h with HExact => n <=? k | _ => false end || announced (n - k) sched'
  end.

(** The stream does not claim to be endless. *)
Definition ends (sched : schedule) : Prop := Forall (fun c => snd c <> HNever) sched.

(** Decode up to [n] items with one decoder object: after every call, if the decoder has become
    idle, take the item with [finish_decoding].  Returns the decoder, the bytes that were
    not consumed, the items, and the status. *)
Fixpoint decode_items {S I} (D : Decoder S I) (fuel : nat) (n : nat) (s : S) (input : list byte)
    (items : list I) (sched : schedule) : S * list byte * list I * res unit :=
  match n, sched with
  | 0, _ => (s, input, items, Ok tt)
  | _, [] => (s, input, items, Ok tt)
  | Datatypes.S n', (k, h) :: sched' =>
      match dec_decode D fuel s (firstn k input) (hint_eos h (skipn k input)) with
      | (s1, Ok m) =>
          if dec_idle D s1 then
            match dec_finish D s1 with
            | (s2, Ok i) => decode_items D fuel n' s2 (skipn m input) (items ++ [i]) sched'
            | (s2, r) => (s2, skipn m input, items, rcast r)
            end
          else decode_items D fuel n s1 (skipn m input) items sched'
      | (s1, r) => (s1, input, items, rcast r)
      end
  end.

(** The calls that offer at least one byte. *)
Definition pushes (sched : schedule) : nat :=
  length (filter (fun c => negb (fst c =? 0)) sched).

(** Encode several items one after the other with one encoder object; each comes with the
    buffers offered for it.  The next item is started when the encoder is idle. *)
Fixpoint encode_items {S I} (E : Encoder S I) (fuel : nat) (s : S) (out : list byte)
    (jobs : list (I * list (list byte))) : S * list byte * res unit :=
  match jobs with
  | [] => (s, out, Ok tt)
  | (i, bufs) :: jobs' =>
      match enc_start E fuel s i with
      | (s1, Ok _) =>
          match drain E fuel s1 out bufs with
          | (s2, out', Ok _) =>
              if enc_idle E s2 then encode_items E fuel s2 out' jobs' else (s2, out', Ok tt)
          | x => x
          end
      | (s1, r) => (s1, out, r)
      end
  end.

(** The schedule lets an item of [w] bytes be completed, by the way the item is delimited. *)
Definition completes (m : mode) (w : list byte) (sched : schedule) : Prop :=
  match m with
  | SD => sched <> [] /\ length w <= offered sched
  | Exact => sched <> [] /\ length w <= offered sched /\ ends sched
  | ToEos => announced (length w) sched = true /\ ends sched
  end.

(** A reader whose reads may be short but never fail and return 0 only at the end. *)
Definition short_reads (r : Reader) : Prop :=
  Forall (fun p => exists n, p = RdSome n) (rd_plan r).
(** A writer whose writes may be short or interrupted but otherwise succeed. *)
Definition short_writes (w : Writer) : Prop :=
  Forall (fun p => p = WrErr IoInterrupted \/ exists n, p = WrSome n) (wr_plan w).
