(** * Combinators whose closures have side effects *)
From Verif Require Export Extend.
Set Implicit Arguments.

(** In [Comb.v] the closures given to [map], [try_map], [map_err], [and_then], [map_from] and [try_map_from] are
    pure functions.  A closure of type [Fn] can still count, log or allocate (through shared state): here a
    closure is a function that also changes a state [C], which lives beside the codec.  The code is the same. *)
Section Model.
  Context {C S I : Type}.

  (** [Map]: src/combinator.rs:44-72 *)
  Definition map_eff {T} (D : Decoder S I) (f : C -> I -> C * T) : Decoder (S * C) T :=
    {| dec_decode := fun fuel st buf e =>
         let '(s', r) := dec_decode D fuel (fst st) buf e in ((s', snd st), r);
       dec_finish := fun st =>
         match dec_finish D (fst st) with
         | (s', Ok i) => let '(c', t) := f (snd st) i in ((s', c'), Ok t)
         | (s', r) => ((s', snd st), rcast r)
         end;
       dec_req := fun st => dec_req D (fst st);
       dec_idle := fun st => dec_idle D (fst st) |}.

  (** [TryMap]: src/combinator.rs:919-943 *)
  Definition try_map_eff {T} (D : Decoder S I) (f : C -> I -> C * (T + ErrorKind)) : Decoder (S * C) T :=
    {| dec_decode := fun fuel st buf e =>
         let '(s', r) := dec_decode D fuel (fst st) buf e in ((s', snd st), r);
       dec_finish := fun st =>
         match dec_finish D (fst st) with
         | (s', Ok i) =>
             match f (snd st) i with
             | (c', inl t) => ((s', c'), Ok t)
             | (c', inr k) => ((s', c'), Err k)
             end
         | (s', r) => ((s', snd st), rcast r)
         end;
       dec_req := fun st => dec_req D (fst st);
       dec_idle := fun st => dec_idle D (fst st) |}.

  (** [Result::map_err] with such a closure *)
  Definition err_eff {A} (f : C -> ErrorKind -> C * ErrorKind) (c : C) (r : res A) : C * res A :=
    match r with Err k => let '(c', k') := f c k in (c', Err k') | _ => (c, r) end.
  (** [MapErr]: src/combinator.rs:108-138 *)
  Definition map_err_eff (D : Decoder S I) (f : C -> ErrorKind -> C * ErrorKind) : Decoder (S * C) I :=
    {| dec_decode := fun fuel st buf e =>
         let '(s', r) := dec_decode D fuel (fst st) buf e in
         let '(c', r') := err_eff f (snd st) r in ((s', c'), r');
       dec_finish := fun st =>
         let '(s', r) := dec_finish D (fst st) in
         let '(c', r') := err_eff f (snd st) r in ((s', c'), r');
       dec_req := fun st => dec_req D (fst st);
       dec_idle := fun st => dec_idle D (fst st) |}.
  (** [MapErr] of an encoder: src/combinator.rs:139-166 *)
  Definition map_err_enc_eff (E : Encoder S I) (f : C -> ErrorKind -> C * ErrorKind) : Encoder (S * C) I :=
    {| enc_encode := fun fuel st buf e =>
         let '(s', buf', r) := enc_encode E fuel (fst st) buf e in
         let '(c', r') := err_eff f (snd st) r in ((s', c'), buf', r');
       enc_start := fun fuel st i =>
         let '(s', r) := enc_start E fuel (fst st) i in
         let '(c', r') := err_eff f (snd st) r in ((s', c'), r');
       enc_req := fun st => enc_req E (fst st);
       enc_idle := fun st => enc_idle E (fst st) |}.

  (** [MapFrom]: src/combinator.rs:273-298 *)
  Definition map_from_eff {T} (E : Encoder S I) (f : C -> T -> C * I) : Encoder (S * C) T :=
    {| enc_encode := fun fuel st buf e =>
         let '(s', buf', r) := enc_encode E fuel (fst st) buf e in ((s', snd st), buf', r);
       enc_start := fun fuel st t =>
         let '(c', i) := f (snd st) t in
         let '(s', r) := enc_start E fuel (fst st) i in ((s', c'), r);
       enc_req := fun st => enc_req E (fst st);
       enc_idle := fun st => enc_idle E (fst st) |}.

  (** [TryMapFrom]: src/combinator.rs:341-367 *)
  Definition try_map_from_eff {T} (E : Encoder S I) (f : C -> T -> C * (I + ErrorKind)) : Encoder (S * C) T :=
    {| enc_encode := fun fuel st buf e =>
         let '(s', buf', r) := enc_encode E fuel (fst st) buf e in ((s', snd st), buf', r);
       enc_start := fun fuel st t =>
         match f (snd st) t with
         | (c', inl i) => let '(s', r) := enc_start E fuel (fst st) i in ((s', c'), r)
         | (c', inr k) => ((fst st, c'), Err k)
         end;
       enc_req := fun st => enc_req E (fst st);
       enc_idle := fun st => enc_idle E (fst st) |}.

  (** [AndThen]: src/combinator.rs:202-239 *)
  Definition and_then_eff {S1 I1} (D0 : Decoder S I) (D1 : Decoder S1 I1) (f : C -> I -> C * S1)
      : Decoder (AndThen S S1 * C) I1 :=
    {| dec_decode := fun fuel st buf e =>
         let '(a, c) := st in
         match at_inner1 a with
         | Some s1 => let '(a', r) := and_then_body D1 fuel (at_inner0 a) s1 0 buf e in ((a', c), r)
         | None =>
             match try_decode D0 fuel (at_inner0 a) 0 buf e with
             | TRet s0 r => ((mkAndThen s0 None, c), r)
             | TGo s0 off =>
                 match dec_finish D0 s0 with
                 | (s0', Ok i0) =>
                     let '(c', s1) := f c i0 in
                     let '(a', r) := and_then_body D1 fuel s0' s1 off buf e in ((a', c'), r)
                 | (s0', r) => ((mkAndThen s0' None, c), rcast r)
                 end
             end
         end;
       dec_finish := fun st =>
         let '(a', r) := dec_finish (and_then_decoder D0 D1 (fun i => snd (f (snd st) i))) (fst st) in
         ((a', snd st), r);
       dec_req := fun st => dec_req (and_then_decoder D0 D1 (fun i => snd (f (snd st) i))) (fst st);
       dec_idle := fun st => dec_idle (and_then_decoder D0 D1 (fun i => snd (f (snd st) i))) (fst st) |}.
End Model.

(** ** Specification: one call of the closure per item, error or start, in their order *)

(** The closure is called for each item that [finish_decoding] returns, and for nothing else. *)
Fixpoint each_item {C I T} (f : C -> I -> C * T) (c : C) (obs : list (dec_obs I)) : C * list (dec_obs T) :=
  match obs with
  | [] => (c, [])
  | ObFinish (Ok i) :: obs' =>
      let '(c1, t) := f c i in let '(c2, l) := each_item f c1 obs' in (c2, ObFinish (Ok t) :: l)
  | ObFinish r :: obs' => let '(c2, l) := each_item f c obs' in (c2, ObFinish (rcast r) :: l)
  | ObDecode r :: obs' => let '(c2, l) := each_item f c obs' in (c2, ObDecode r :: l)
  | ObReq r :: obs' => let '(c2, l) := each_item f c obs' in (c2, ObReq r :: l)
  | ObIdle b :: obs' => let '(c2, l) := each_item f c obs' in (c2, ObIdle b :: l)
  end.
(** The items that the closure refuses become errors. *)
Definition or_error {T} (o : dec_obs (T + ErrorKind)) : dec_obs T :=
  match o with
  | ObFinish (Ok (inl t)) => ObFinish (Ok t)
  | ObFinish (Ok (inr k)) => ObFinish (Err k)
  | ObFinish r => ObFinish (rcast r)
  | ObDecode r => ObDecode r
  | ObReq r => ObReq r
  | ObIdle b => ObIdle b
  end.

(** The closure is called for each error that [decode] or [finish_decoding] returns. *)
Fixpoint each_error {C I} (f : C -> ErrorKind -> C * ErrorKind) (c : C) (obs : list (dec_obs I))
    : C * list (dec_obs I) :=
  match obs with
  | [] => (c, [])
  | o :: obs' =>
      let '(c1, o1) := match o with
                       | ObDecode (Err k) => let '(c', k') := f c k in (c', ObDecode (Err k'))
                       | ObFinish (Err k) => let '(c', k') := f c k in (c', ObFinish (Err k'))
                       | _ => (c, o)
                       end in
      let '(c2, l) := each_error f c1 obs' in (c2, o1 :: l)
  end.
(** For each error that [encode] or [start_encoding] returns. *)
Fixpoint each_enc_error {C} (f : C -> ErrorKind -> C * ErrorKind) (c : C) (obs : list enc_obs)
    : C * list enc_obs :=
  match obs with
  | [] => (c, [])
  | o :: obs' =>
      let '(c1, o1) := match o with
                       | ObEncode b (Err k) => let '(c', k') := f c k in (c', ObEncode b (Err k'))
                       | ObStart (Err k) => let '(c', k') := f c k in (c', ObStart (Err k'))
                       | _ => (c, o)
                       end in
      let '(c2, l) := each_enc_error f c1 obs' in (c2, o1 :: l)
  end.

(** The closure is called for each item given to [start_encoding]; [inr k] is a call it has refused. *)
Fixpoint each_start {C I T} (f : C -> T -> C * (I + ErrorKind)) (c : C) (ops : list (enc_op T))
    : C * list (enc_op I + ErrorKind) :=
  match ops with
  | [] => (c, [])
  | OpStart fuel t :: ops' =>
      let '(c1, x) := f c t in
      let '(c2, l) := each_start f c1 ops' in
      (c2, match x with inl i => inl (OpStart fuel i) | inr k => inr k end :: l)
  | OpEncode fuel b e :: ops' => let '(c2, l) := each_start f c ops' in (c2, inl (OpEncode fuel b e) :: l)
  | OpEReq :: ops' => let '(c2, l) := each_start f c ops' in (c2, inl OpEReq :: l)
  | OpEIdle :: ops' => let '(c2, l) := each_start f c ops' in (c2, inl OpEIdle :: l)
  end.
(** A call that the closure has refused does not reach the encoder. *)
Fixpoint some_trace {S I} (E : Encoder S I) (s : S) (ops : list (enc_op I + ErrorKind)) : list enc_obs :=
  match ops with
  | [] => []
  | inl o :: ops' => let '(s', b) := enc_do E s o in b :: some_trace E s' ops'
  | inr k :: ops' => ObStart (Err k) :: some_trace E s ops'
  end.

(** The state after a history of calls. *)
Fixpoint dec_final {S I} (D : Decoder S I) (s : S) (ops : list dec_op) : S :=
  match ops with [] => s | o :: ops' => dec_final D (fst (dec_do D s o)) ops' end.
Fixpoint enc_final {S I} (E : Encoder S I) (s : S) (ops : list (enc_op I)) : S :=
  match ops with [] => s | o :: ops' => enc_final E (fst (enc_do E s o)) ops' end.
