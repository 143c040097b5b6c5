(** * Memory that decoders hold and ask for *)
From Verif Require Export Comb Observe.
Set Implicit Arguments.

(** [RemainingBytesDecoder] (src/bytes.rs:303-314) first asks its vector for room for the bytes it holds, the
    bytes of the buffer and those announced by [eos] ([reserve_exact]); once it has seen the end it asks for
    nothing. *)
Definition rem_claim (st : RemDec) (buf : list byte) (e : Eos) : N :=
  if rm_eos st then 0
  else len (rm_buf st) + len buf + match remaining_bytes e with Finite m => m | _ => 0 end.
(** [MonolithicDecoder] (src/monolithic.rs:52-66) keeps the bytes until the last call, which only reads. *)
Definition mono_claim {I} (st : MonoDec I) (buf : list byte) (e : Eos) : N :=
  if is_reached e then len (md_buf st) else len (md_buf st) + len buf.

(** A decoder together with a meter that shows the most memory, in bytes, that any call so far has asked for.
    [claim] is what a call asks for. *)
Definition metered {S I} (claim : S -> list byte -> Eos -> N) (D : Decoder S I) : Decoder (S * N) I :=
  {| dec_decode := fun fuel st buf e =>
       let '(s', r) := dec_decode D fuel (fst st) buf e in
       ((s', N.max (snd st) (claim (fst st) buf e)), r);
     dec_finish := fun st => let '(s', r) := dec_finish D (fst st) in ((s', snd st), r);
     dec_req := fun st => dec_req D (fst st);
     dec_idle := fun st => dec_idle D (fst st) |}.

(** The life of a decoder: any calls of [decode], successful or not, also on a decoder that is idle if
    [idle_too]; and calls of [finish_decoding], of which only those that return an item if [early] is false. *)
Inductive life {S I} (D : Decoder S I) (idle_too early : bool) (s : S) : S -> Prop :=
| life_new : life D idle_too early s s
| life_decode : forall s1 fuel buf e s2 r,
    life D idle_too early s s1 -> (idle_too = false -> dec_idle D s1 = false) ->
    dec_decode D fuel s1 buf e = (s2, r) -> life D idle_too early s s2
| life_finish : forall s1 s2 r,
    life D idle_too early s s1 -> (early = false -> exists i, r = Ok i) ->
    dec_finish D s1 = (s2, r) -> life D idle_too early s s2.
