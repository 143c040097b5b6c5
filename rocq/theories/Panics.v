(** * Combinators whose closures may panic *)
From Verif Require Export Closures.
Set Implicit Arguments.

(** In [Comb.v] the closures return.  Here a closure may also panic ([None]); the panic unwinds through the call of
    the crate ([Panic] is its result), and a caller that catches it ([catch_unwind], or another thread that gets
    hold of the codec) goes on with the codec in the state that the call had reached.  The code is the same. *)
Section Model.
  Context {S I : Type}.

  (** [Map]: src/combinator.rs:60-63; the item is out of the decoder before the closure runs. *)
  Definition map_pan {T} (D : Decoder S I) (f : I -> option T) : Decoder S T :=
    {| dec_decode := dec_decode D;
       dec_finish := fun s =>
         match dec_finish D s with
         | (s', Ok i) => (s', match f i with Some t => Ok t | None => Panic end)
         | (s', r) => (s', rcast r)
         end;
       dec_req := dec_req D;
       dec_idle := dec_idle D |}.

  (** [TryMap]: src/combinator.rs:931-934. *)
  Definition try_map_pan {T} (D : Decoder S I) (f : I -> option (T + ErrorKind)) : Decoder S T :=
    {| dec_decode := dec_decode D;
       dec_finish := fun s =>
         match dec_finish D s with
         | (s', Ok i) =>
             (s', match f i with Some (inl t) => Ok t | Some (inr k) => Err k | None => Panic end)
         | (s', r) => (s', rcast r)
         end;
       dec_req := dec_req D;
       dec_idle := dec_idle D |}.

  (** [MapErr]: src/combinator.rs:108-138. *)
  Definition err_pan {A} (f : ErrorKind -> option ErrorKind) (r : res A) : res A :=
    match r with Err k => match f k with Some k' => Err k' | None => Panic end | _ => r end.
  Definition map_err_pan (D : Decoder S I) (f : ErrorKind -> option ErrorKind) : Decoder S I :=
    {| dec_decode := fun fuel s buf e =>
         let '(s', r) := dec_decode D fuel s buf e in (s', err_pan f r);
       dec_finish := fun s => let '(s', r) := dec_finish D s in (s', err_pan f r);
       dec_req := dec_req D;
       dec_idle := dec_idle D |}.

  (** [MapFrom]: src/combinator.rs:286-288; the closure runs before the encoder is called. *)
  Definition map_from_pan {T} (E : Encoder S I) (f : T -> option I) : Encoder S T :=
    {| enc_encode := enc_encode E;
       enc_start := fun fuel s t =>
         match f t with Some i => enc_start E fuel s i | None => (s, Panic) end;
       enc_req := enc_req E;
       enc_idle := enc_idle E |}.

  (** [TryMapFrom]: src/combinator.rs:354-357. *)
  Definition try_map_from_pan {T} (E : Encoder S I) (f : T -> option (I + ErrorKind)) : Encoder S T :=
    {| enc_encode := enc_encode E;
       enc_start := fun fuel s t =>
         match f t with
         | Some (inl i) => enc_start E fuel s i
         | Some (inr k) => (s, Err k)
         | None => (s, Panic)
         end;
       enc_req := enc_req E;
       enc_idle := enc_idle E |}.

  (** [AndThen]: src/combinator.rs:210-221; at the panic [inner1] is still [None]. *)
  Definition and_then_pan {S1 I1} (D0 : Decoder S I) (D1 : Decoder S1 I1) (f : I -> option S1)
      : Decoder (AndThen S S1) I1 :=
    {| dec_decode := fun fuel st buf e =>
         match at_inner1 st with
         | Some s1 => and_then_body D1 fuel (at_inner0 st) s1 0 buf e
         | None =>
             match try_decode D0 fuel (at_inner0 st) 0 buf e with
             | TRet s0 r => (mkAndThen s0 None, r)
             | TGo s0 off =>
                 match dec_finish D0 s0 with
                 | (s0', Ok i0) =>
                     match f i0 with
                     | Some s1 => and_then_body D1 fuel s0' s1 off buf e
                     | None => (mkAndThen s0' None, Panic)
                     end
                 | (s0', r) => (mkAndThen s0' None, rcast r)
                 end
             end
         end;
       dec_finish := fun st =>
         match at_inner1 st with
         | None => (st, Err IncompleteDecoding)
         | Some s1 => (mkAndThen (at_inner0 st) None, snd (dec_finish D1 s1))
         end;
       dec_req := fun st =>
         match at_inner1 st with Some s1 => dec_req D1 s1 | None => dec_req D0 (at_inner0 st) end;
       dec_idle := fun st =>
         match at_inner1 st with Some s1 => dec_idle D1 s1 | None => false end |}.

  (** [Extend::extend] of one item: what it leaves in the collection, and whether it panicked.
      [Collect]: src/combinator.rs:623-639. *)
  Section Extending.
    Context {T : Type} (D : Decoder S I) (dflt : T) (ext : T -> I -> T * bool).
    Fixpoint into_pan_loop (n fuel : nat) (s : S) (items : T) (off : nat) (buf : list byte) (e : Eos)
        : CollectInto S T * res nat :=
      if off <? length buf then
        match n with
        | 0 => (mkInto s items false, OutOfFuel)
        | Datatypes.S n' =>
            match try_decode D fuel s off buf e with
            | TRet s' r => (mkInto s' items false, r)
            | TGo s' off' =>
                match dec_finish D s' with
                | (s'', Ok i) =>
                    let '(items', panicked) := ext items i in
                    if panicked then (mkInto s'' items' false, Panic)
                    else into_pan_loop n' fuel s'' items' off' buf e
                | (s'', r) => (mkInto s'' items false, rcast r)
                end
            end
        end
      else (mkInto s items (is_reached e), Ok off).
    (** src/combinator.rs:615-658. *)
    Definition into_pan : Decoder (CollectInto S T) T :=
      {| dec_decode := fun fuel st buf e =>
           if ci_eos st then (st, Ok 0)
           else into_pan_loop fuel fuel (ci_inner st) (ci_items st) 0 buf e;
         dec_finish := fun st =>
           if ci_eos st then (mkInto (ci_inner st) dflt false, Ok (ci_items st))
           else (st, Err IncompleteDecoding);
         dec_req := fun st => if ci_eos st then Ok (Finite 0) else dec_req D (ci_inner st);
         dec_idle := fun st => ci_eos st |}.

    (** [CollectN]: src/combinator.rs:852-865; [extend] comes before [remaining_items -= 1]. *)
    Fixpoint ninto_pan_loop (fuel : nat) (remaining : nat) (s : S) (items : T) (off : nat)
        (buf : list byte) (e : Eos) : CollectNInto S T * res nat :=
      let stop :=
        (mkNInto s remaining items,
         if negb (remaining =? 0) && is_reached e then Err UnexpectedEos else Ok off) in
      match remaining with
      | 0 => stop
      | Datatypes.S remaining' =>
          if off <? length buf then
            match try_decode D fuel s off buf e with
            | TRet s' r => (mkNInto s' remaining items, r)
            | TGo s' off' =>
                match dec_finish D s' with
                | (s'', Ok i) =>
                    let '(items', panicked) := ext items i in
                    if panicked then (mkNInto s'' remaining items', Panic)
                    else ninto_pan_loop fuel remaining' s'' items' off' buf e
                | (s'', r) => (mkNInto s'' remaining items, rcast r)
                end
            end
          else stop
      end.
    (** src/combinator.rs:845-884. *)
    Definition ninto_pan : Decoder (CollectNInto S T) T :=
      {| dec_decode := fun fuel st buf e =>
           ninto_pan_loop fuel (ni_remaining st) (ni_inner st) (ni_items st) 0 buf e;
         dec_finish := fun st =>
           if ni_remaining st =? 0
           then (mkNInto (ni_inner st) (ni_remaining st) dflt, Ok (ni_items st))
           else (st, Err IncompleteDecoding);
         dec_req := fun st =>
           if ni_remaining st =? 0 then Ok (Finite 0) else dec_req D (ni_inner st);
         dec_idle := fun st => ni_remaining st =? 0 |}.
  End Extending.

  (** [MonolithicDecoder]: src/monolithic.rs:52-66; [self.buf] is only read before the item is there. *)
  Definition mono_decode_pan (f : list byte -> option ((I + ErrorKind) * nat)) (st : MonoDec I)
      (buf : list byte) (e : Eos) : MonoDec I * res nat :=
    if is_reached e then
      match f (md_buf st ++ buf) with
      | Some (inl item, read) =>
          (mkMonoDec (Some item) [], Ok (Nat.min (length buf) (read - length (md_buf st))))
      | Some (inr k, _) => (st, Err k)
      | None => (st, Panic)
      end
    else (mkMonoDec (md_item st) (md_buf st ++ buf), Ok (length buf)).

  (** How [monolithic_encode] ends after its writes. *)
  Inductive mono_end := EndOk | EndErr (k : ErrorKind) | EndPanic.
  (** [MonolithicEncoder]: src/monolithic.rs:132-149; the item has been taken out ([self.item.take()]). *)
  Definition mono_encode_pan (f : I -> list (list byte) * mono_end) (st : MonoEnc I) (buf : list byte) (e : Eos)
      : MonoEnc I * list byte * res nat :=
    match me_item st with
    | Some item =>
        let '(chunks, last) := f item in
        let w := fold_left (fun w c => wc_write_all (length c) w c) chunks (mkWC [] (length buf) []) in
        let buf' := overwrite buf 0 (wc_a w) in
        match last with
        | EndPanic => (mkMonoEnc None (me_buf st), buf', Panic)
        | EndErr k => (mkMonoEnc None (me_buf st), buf', Err k)
        | EndOk =>
            match wc_b w with
            | [] => (mkMonoEnc None (me_buf st), buf', Ok (length (wc_a w)))
            | _ :: _ =>
                match bytes_start (me_buf st) (wc_b w) with
                | (b', Ok _) => (mkMonoEnc None b', buf', Ok (length buf))
                | (b', r) => (mkMonoEnc None b', buf', rcast r)
                end
            end
        end
    | None =>
        let '(b', buf', r) := bytes_encode vec_box (me_buf st) buf e in
        (mkMonoEnc None b', buf', r)
    end.

  (** [Repeat] over an iterator: [None] is a [next] that panics, after which the iterator can be asked again.
      src/combinator.rs:413-431. *)
  Fixpoint pull_pan (E : Encoder S I) (fuel : nat) (s : S) (items : list (option I)) : pulled S (option I) :=
    if enc_idle E s then
      match items with
      | [] => PullDone s
      | None :: rest => PullFail s rest Panic
      | Some i :: rest =>
          match enc_start E fuel s i with
          | (s', Ok _) => pull_pan E fuel s' rest
          | (s', r) => PullFail s' rest (rcast r)
          end
      end
    else PullGo s items.
  Fixpoint repeat_pan_loop (E : Encoder S I) (n fuel : nat) (st : Repeat S (option I)) (off : nat)
      (buf : list byte) (e : Eos) : Repeat S (option I) * list byte * res nat :=
    match n with
    | 0 => (st, buf, OutOfFuel)
    | Datatypes.S n' =>
        let items := match rp_items st with Some l => l | None => [] end in
        let wrap rest := match rp_items st with Some _ => Some rest | None => None end in
        match pull_pan E fuel (rp_inner st) items with
        | PullDone s => (mkRepeat s None, buf, Ok off)
        | PullFail s rest r => (mkRepeat s (wrap rest), buf, r)
        | PullGo s rest =>
            match slice_from off buf with
            | None => (mkRepeat s (wrap rest), buf, Panic)
            | Some b =>
                match enc_encode E fuel s b e with
                | (s', b', Ok size) =>
                    let buf' := firstn off buf ++ b' in
                    let st' := mkRepeat s' (wrap rest) in
                    if size =? 0 then (st', buf', Ok (off + size))
                    else repeat_pan_loop E n' fuel st' (off + size) buf' e
                | (s', b', r) => (mkRepeat s' (wrap rest), firstn off buf ++ b', r)
                end
            end
        end
    end.
End Model.

(** ** Specification *)

(** The history of a decoder in which the items that the closure panics on are not delivered, and nothing else
    is different. *)
Definition or_panic {T} (o : dec_obs (option T)) : dec_obs T :=
  match o with
  | ObFinish (Ok (Some t)) => ObFinish (Ok t)
  | ObFinish (Ok None) => ObFinish Panic
  | ObFinish r => ObFinish (rcast r)
  | ObDecode r => ObDecode r
  | ObReq r => ObReq r
  | ObIdle b => ObIdle b
  end.
(** The same for errors that the closure panics on. *)
Definition or_panic_err {T} (f : ErrorKind -> option ErrorKind) (o : dec_obs T) : dec_obs T :=
  match o with
  | ObDecode (Err k) => ObDecode (match f k with Some k' => Err k' | None => Panic end)
  | ObFinish (Err k) => ObFinish (match f k with Some k' => Err k' | None => Panic end)
  | o => o
  end.
(** The history of an encoder that never saw the items on which the closure panicked ([inr]). *)
Fixpoint unseen {S I} (E : Encoder S I) (s : S) (ops : list (enc_op I + unit)) : list enc_obs :=
  match ops with
  | [] => []
  | inl o :: ops' => let '(s', b) := enc_do E s o in b :: unseen E s' ops'
  | inr _ :: ops' => ObStart Panic :: unseen E s ops'
  end.
Definition started {T I} (f : T -> option I) (o : enc_op T) : enc_op I + unit :=
  match o with
  | OpStart fuel t => match f t with Some i => inl (OpStart fuel i) | None => inr tt end
  | OpEncode fuel b e => inl (OpEncode fuel b e)
  | OpEReq => inl OpEReq
  | OpEIdle => inl OpEIdle
  end.
(** What [extend] makes of a list of items, one after the other, and how many of the calls returned. *)
Fixpoint extended {T I} (ext : T -> I -> T * bool) (t : T) (l : list I) : T * nat :=
  match l with
  | [] => (t, 0)
  | i :: l' =>
      let '(t', panicked) := ext t i in
      let '(t'', n) := extended ext t' l' in (t'', if panicked then n else Datatypes.S n)
  end.
