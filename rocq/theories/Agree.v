(** * Specification for C91: [is_idle] and [requiring_bytes] tell the same story.

    The documentation of [Decode::is_idle] (src/decode.rs:74-84) gives
    [self.requiring_bytes() == ByteCount::Finite(0)] as its default; most decoders of the crate
    have their own [is_idle], so the agreement is a property of them. *)
From Verif Require Export Comb Tuple Fixnum Utf8 DecComb.
Set Implicit Arguments.

(** A call that comes back. *)
Definition fair {A} (r : res A) : Prop := r <> Panic /\ r <> OutOfFuel.

(** Any history of calls that come back: [decode] with any buffer and any hint, [finish_decoding],
    setters, in any order, also after errors. *)
Inductive used {S I} (D : Decoder S I) (Conf : S -> S -> Prop) (s0 : S) : S -> Prop :=
| used_new : used D Conf s0 s0
| used_decode : forall s fuel buf e s' r,
    used D Conf s0 s -> dec_decode D fuel s buf e = (s', r) -> fair r -> used D Conf s0 s'
| used_finish : forall s s' r,
    used D Conf s0 s -> dec_finish D s = (s', r) -> fair r -> used D Conf s0 s'
| used_set : forall s s', used D Conf s0 s -> Conf s s' -> used D Conf s0 s'.

(** The user's own decoder: what [told] asks of it.  [L] holds in every state that a history
    reaches; there, the two answers agree.  If [b], every item has at least one byte: the decoder is
    not idle at first, not after [finish_decoding], and does not become so in a call that fails. *)
Record tells {S I} (D : Decoder S I) (b : bool) (Conf : S -> S -> Prop) (L : S -> Prop) : Prop := {
  tl_agree : forall s, L s -> (dec_idle D s = true <-> dec_req D s = Ok (Finite 0));
  tl_decode : forall s fuel buf e s' r, L s -> dec_decode D fuel s buf e = (s', r) -> fair r ->
    L s' /\ (b = true -> dec_idle D s = false -> (exists k, r = Err k) -> dec_idle D s' = false);
  tl_finish : forall s s' r, L s -> dec_finish D s = (s', r) -> fair r ->
    L s' /\ (b = true -> dec_idle D s' = false);
  tl_set : forall s s', L s -> Conf s s' -> L s' /\ (b = true -> dec_idle D s' = dec_idle D s)
}.

(** [told D b Conf Init]: a composition of the decoders of the crate, [length(n)] excepted; [Conf]:
    what setters (and access to the parts) may do; [Init]: how it may be created; [b]: every item has
    at least one byte. *)
Inductive told : forall S I : Type, Decoder S I -> bool -> (S -> S -> Prop) -> (S -> Prop) -> Prop :=
| told_own : forall S I (D : Decoder S I) b Conf L (Init : S -> Prop),
    tells D b Conf L -> (forall s, Init s -> L s /\ (b = true -> dec_idle D s = false)) ->
    told D b Conf Init
| told_weaken : forall S I (D : Decoder S I) b b' Conf (Conf' : S -> S -> Prop) Init (Init' : S -> Prop),
    told D b Conf Init -> (b' = true -> b = true) -> (forall s s', Conf' s s' -> Conf s s') ->
    (forall s, Init' s -> Init s) -> told D b' Conf' Init'
(** src/null.rs, src/bytes.rs, src/padding.rs, src/monolithic.rs, src/fixnum.rs *)
| told_null : told null_decoder false (fun _ _ => False) (fun _ => True)
| told_copy : forall n, told (copy_decoder vec_box) (0 <? n) (fun _ _ => False)
    (fun st => exists b, length b = n /\ st = copy_dec_new b)
| told_bytes : told (bytes_decoder vec_box) false
    (fun st st' => exists b, st' = bytes_dec_set st b) (fun st => st = bytes_dec_default \/ exists b, st = bytes_dec_new b)
| told_rem : told rem_decoder true (fun _ _ => False) (fun st => st = rem_dec_new)
| told_pad : told pad_decoder true (fun st st' => exists b, st' = pad_dec_set st b)
    (fun st => exists b, st = pad_dec_new b)
| told_mono : forall I (f : MonoDecode I),
    told (mono_decoder f) true (fun _ _ => False) (fun st => st = mono_dec_new)
| told_num : forall T (item : list byte -> T) width,
    told (num_decoder item) (0 <? width) (fun _ _ => False) (fun st => st = num_dec_new width)
| told_utf8 : forall S (D : Decoder S (list byte)) b Conf Init,
    told D b Conf Init -> told (utf8_decoder D) b Conf Init
(** src/combinator.rs *)
| told_map : forall S I T (D : Decoder S I) (f : I -> T) b Conf Init,
    told D b Conf Init -> told (map_decoder D f) b Conf Init
| told_try_map : forall S I T (D : Decoder S I) (f : I -> T + ErrorKind) b Conf Init,
    told D b Conf Init -> told (try_map_decoder D f) b Conf Init
| told_map_err : forall S I (D : Decoder S I) f b Conf Init,
    told D b Conf Init -> told (map_err_decoder D f) b Conf Init
(** a header of at least one byte *)
| told_and_then : forall S0 S1 I0 I1 (D0 : Decoder S0 I0) (D1 : Decoder S1 I1) (f : I0 -> S1)
    b Conf0 Conf1 Init0 (Init1 : S1 -> Prop),
    told D0 true Conf0 Init0 -> told D1 b Conf1 Init1 -> (forall i, Init1 (f i)) ->
    told (and_then_decoder D0 D1 f) b
      (fun st st' =>
         (Conf0 (at_inner0 st) (at_inner0 st') /\ at_inner1 st' = at_inner1 st) \/
         (at_inner0 st' = at_inner0 st /\
          exists s1 s1', at_inner1 st = Some s1 /\ at_inner1 st' = Some s1' /\ Conf1 s1 s1'))
      (fun st => exists s0, Init0 s0 /\ st = and_then_new s0)
| told_omit : forall S I (D : Decoder S I) b Conf Init,
    told D b Conf Init ->
    told (omit_decoder D) false
      (fun st st' => (exists o, st' = omit_set st o) \/
                     (Conf (om_inner st) (om_inner st') /\ om_omit st' = om_omit st))
      (fun st => Init (om_inner st))
(** items of at least one byte *)
| told_collect : forall S I (D : Decoder S I) Conf Init,
    told D true Conf Init ->
    told (collect_decoder D) true
      (fun st st' => Conf (cl_inner st) (cl_inner st') /\ cl_items st' = cl_items st /\ cl_eos st' = cl_eos st)
      (fun st => exists s, Init s /\ st = collect_new s)
| told_collectn : forall S I (D : Decoder S I) Conf Init,
    told D true Conf Init ->
    told (collectn_decoder D) false
      (fun st st' => (exists n, st' = collectn_set st n) \/
                     (Conf (cn_inner st) (cn_inner st') /\ cn_remaining st' = cn_remaining st /\
                      cn_items st' = cn_items st))
      (fun st => exists s n, Init s /\ st = collectn_new s n)
| told_max : forall S I (D : Decoder S I) b Conf Init,
    told D b Conf Init ->
    told (max_decoder D) b
      (fun st st' => (exists n, st' = fst (max_set st n)) \/
                     (Conf (mx_inner st) (mx_inner st') /\ mx_consumed st' = mx_consumed st /\
                      mx_max st' = mx_max st))
      (fun st => exists s n, Init s /\ st = max_new s n)
| told_slice : forall S I (D : Decoder S I) b Conf Init,
    told D b Conf Init ->
    told (slice_decoder D) b
      (fun st st' => (exists n, st' = slice_set st n) \/
                     (Conf (sl_inner st) (sl_inner st') /\ sl_consumable st' = sl_consumable st))
      (fun st => exists s, Init s /\ st = slice_new s)
| told_peek : forall S I (D : Decoder S I) Conf Init,
    told D true Conf Init ->
    told (peek_decoder D) true
      (fun st st' => Conf (pk_inner st) (pk_inner st') /\ pk_item st' = pk_item st)
      (fun st => exists s, Init s /\ st = peek_new s)
| told_maybe : forall S I (D : Decoder S I) b Conf Init,
    told D b Conf Init ->
    told (maybe_decoder D) b
      (fun st st' => Conf (my_inner st) (my_inner st') /\ my_started st' = my_started st)
      (fun st => exists s, Init s /\ st = maybe_new s)
(** src/tuple.rs: two components; one more component *)
| told_pair : forall S0 S1 I0 I1 (D0 : Decoder S0 I0) (D1 : Decoder S1 I1) b Conf0 Conf1 Init0 Init1,
    told D0 b Conf0 Init0 -> told D1 b Conf1 Init1 ->
    told (tuple2_decoder D0 D1) b
      (fun s s' => (Conf0 (fst s) (fst s') /\ snd s' = snd s) \/ (fst s' = fst s /\ Conf1 (snd s) (snd s')))
      (fun s => Init0 (fst s) /\ Init1 (snd s))
| told_snoc : forall S0 S1 I0 I1 (P : DecParts S0 I0) (D1 : Decoder S1 I1) b Conf0 Conf1 Init0 Init1,
    parts_ok P -> told (tuple_of_dec_parts P) b Conf0 Init0 -> told D1 b Conf1 Init1 ->
    told (tuple_of_dec_parts (dp_snoc P D1)) b
      (fun s s' => (Conf0 (fst s) (fst s') /\ snd s' = snd s) \/ (fst s' = fst s /\ Conf1 (snd s) (snd s')))
      (fun s => Init0 (fst s) /\ Init1 (snd s)).

(** ** Encoders

    [etold E]: a composition of the encoders of the crate. *)
Inductive etold : forall S I : Type, Encoder S I -> Prop :=
| etold_own : forall S I (E : Encoder S I),
    (forall s, enc_idle E s = true -> enc_req E s = Ok (Finite 0)) -> etold E
(** src/bytes.rs, src/null.rs, src/padding.rs, src/monolithic.rs, src/fixnum.rs *)
| etold_bytes : forall B (BX : ByteBox B), etold (bytes_encoder BX)
| etold_null : etold null_encoder
| etold_pad : etold pad_encoder
| etold_mono : forall I (f : MonoEncode I), etold (mono_encoder f)
| etold_num : forall T (item : T -> list byte + ErrorKind), etold (num_encoder item)
(** src/combinator.rs *)
| etold_map_err : forall S I (E : Encoder S I) f, etold E -> etold (map_err_encoder E f)
| etold_map_from : forall S I T (E : Encoder S I) (f : T -> I), etold E -> etold (map_from_encoder E f)
| etold_try_map_from : forall S I T (E : Encoder S I) (f : T -> I + ErrorKind),
    etold E -> etold (try_map_from_encoder E f)
| etold_repeat : forall S I (E : Encoder S I), etold (repeat_encoder E)
| etold_optional : forall S I (E : Encoder S I), etold E -> etold (optional_encoder E)
| etold_length : forall S I (E : Encoder S I), etold (length_encoder E)
| etold_max : forall S I (E : Encoder S I), etold E -> etold (max_encoder E)
| etold_pre : forall S I (E : Encoder S I), etold (pre_encoder E)
| etold_slice : forall S I (E : Encoder S I), etold E -> etold (slice_encoder E)
| etold_last : forall S I (E : Encoder S I), etold E -> etold (last_encoder E)
(** src/tuple.rs *)
| etold_pair : forall S0 S1 I0 I1 (E0 : Encoder S0 I0) (E1 : Encoder S1 I1),
    etold E0 -> etold E1 -> etold (tuple2_encoder E0 E1)
| etold_snoc : forall S0 S1 I0 I1 (P : EncParts S0 I0) (E1 : Encoder S1 I1),
    etold (tuple_of_enc_parts P) -> etold E1 -> etold (tuple_of_enc_parts (ep_snoc P E1)).
