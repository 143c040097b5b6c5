(** * Decoders that take what they are given: specification of C71 and C72. *)
From Verif Require Export Safe DecComb EncComb.
Set Implicit Arguments.

(** A successful [decode] takes the whole buffer unless the item is complete. *)
Definition takes_all {S I} (D : Decoder S I) : Prop :=
  forall fuel s buf e s' n, dec_decode D fuel s buf e = (s', Ok n) ->
    n <= length buf /\ (dec_idle D s' = false -> n = length buf).
(** A successful [decode] that is told that the stream ends with its buffer completes the item. *)
Definition ends_at_eos {S I} (D : Decoder S I) : Prop :=
  forall fuel s buf e s' n, dec_decode D fuel s buf e = (s', Ok n) ->
    is_reached e = true -> dec_idle D s' = true.

(** [eager D b]: the compositions for which [takes_all] is claimed; those with [b] also complete their item at
    the end of the stream.  Everything in the crate except [slice] (which suspends) and [length] over a decoder
    without [b]. *)
Inductive eager : forall S I : Type, Decoder S I -> bool -> Prop :=
| ea_copy : forall B (BX : ByteBox B), box_ok BX -> eager (copy_decoder BX) true
| ea_bytes : forall B (BX : ByteBox B), box_ok BX -> eager (bytes_decoder BX) true
| ea_rest : eager rem_decoder true
| ea_null : eager null_decoder true
| ea_pad : eager pad_decoder true
| ea_mono : forall I (f : MonoDecode I), eager (mono_decoder f) true
| ea_num : forall T (item : list byte -> T), eager (num_decoder item) true
| ea_utf8 : forall S (D : Decoder S (list byte)) b, eager D b -> eager (utf8_decoder D) b
| ea_map : forall S I T (D : Decoder S I) (f : I -> T) b, eager D b -> eager (map_decoder D f) b
| ea_try_map : forall S I T (D : Decoder S I) (f : I -> T + ErrorKind) b,
    eager D b -> eager (try_map_decoder D f) b
| ea_map_err : forall S I (D : Decoder S I) f b, eager D b -> eager (map_err_decoder D f) b
| ea_and_then : forall S0 S1 I0 I1 (D0 : Decoder S0 I0) (D1 : Decoder S1 I1) (f : I0 -> S1) b0 b1,
    eager D0 b0 -> eager D1 b1 -> eager (and_then_decoder D0 D1 f) (b0 && b1)
| ea_omit : forall S I (D : Decoder S I) b, eager D b -> eager (omit_decoder D) b
| ea_collect : forall S I (D : Decoder S I) b, eager D b -> eager (collect_decoder D) b
| ea_collectn : forall S I (D : Decoder S I) b, eager D b -> eager (collectn_decoder D) b
| ea_length : forall S I (D : Decoder S I), eager D true -> eager (length_decoder D) false
| ea_max : forall S I (D : Decoder S I) b, eager D b -> eager (max_decoder D) b
| ea_peek : forall S I (D : Decoder S I) b, eager D b -> eager (peek_decoder D) b
| ea_maybe : forall S I (D : Decoder S I) b, eager D b -> eager (maybe_decoder D) false
| ea_pair : forall S0 S1 I0 I1 (D0 : Decoder S0 I0) (D1 : Decoder S1 I1) b0 b1,
    eager D0 b0 -> eager D1 b1 -> eager (tuple2_decoder D0 D1) (b0 && b1)
| ea_snoc : forall S0 S1 I0 I1 (P : DecParts S0 I0) (D1 : Decoder S1 I1) b0 b1,
    parts_ok P -> eager (tuple_of_dec_parts P) b0 -> eager D1 b1 ->
    eager (tuple_of_dec_parts (dp_snoc P D1)) (b0 && b1).

(** [within q n]: a call that took [n] bytes took at least what [requiring_bytes] said, [q]. *)
Definition within (q : res ByteCount) (n : nat) : Prop :=
  match q with
  | Ok (Finite k) => (k <= N.of_nat n)%N
  | Ok Unknown => 1 <= n
  | Ok Infinite => False
  | _ => True
  end.

(** [frugal D m l h Init]: the compositions, created in a state in [Init], of which it is claimed that
    [requiring_bytes] is a lower bound, whatever the bytes are.
    - [m]: for every call (otherwise: except calls that bring bytes and announce the end of the stream);
    - [l]: a successful call that announces the end of the stream completes the item;
    - [h]: the item ends with the stream and only there.
    [length(n)] is only allowed over such decoders ([h]): over others the bytes of its window that the inner
    decoder does not want are asked for and then left in the buffer. *)
Inductive frugal : forall S I : Type, Decoder S I -> bool -> bool -> bool -> (S -> Prop) -> Prop :=
| fg_weaken : forall S I (D : Decoder S I) m l h Init (Init' : S -> Prop),
    frugal D m l h Init -> (forall s, Init' s -> Init s) -> frugal D m l h Init'
| fg_copy : forall B (BX : ByteBox B), box_ok BX -> frugal (copy_decoder BX) true true false (fun _ => True)
| fg_bytes : forall B (BX : ByteBox B), box_ok BX ->
    frugal (bytes_decoder BX) true true false (fun s => exists b, s = bytes_dec_new b)
| fg_rest : frugal rem_decoder true true true (fun s => s = rem_dec_new)
| fg_null : frugal null_decoder true true false (fun _ => True)
| fg_pad : frugal pad_decoder true true true (fun s => exists b, s = pad_dec_new b)
| fg_mono : forall I (f : MonoDecode I), frugal (mono_decoder f) false true false (fun s => s = mono_dec_new)
(** a [MonolithicDecode] that reads to the end, such as the JSON decoder *)
| fg_mono_all : forall I (f : MonoDecode I), (forall w i n, f w = (inl i, n) -> length w <= n) ->
    frugal (mono_decoder f) true true true (fun s => s = mono_dec_new)
| fg_num : forall T (item : list byte -> T), frugal (num_decoder item) true true false (fun _ => True)
| fg_utf8 : forall S (D : Decoder S (list byte)) m l h Init,
    frugal D m l h Init -> frugal (utf8_decoder D) m l h Init
| fg_map : forall S I T (D : Decoder S I) (f : I -> T) m l h Init,
    frugal D m l h Init -> frugal (map_decoder D f) m l h Init
| fg_try_map : forall S I T (D : Decoder S I) (f : I -> T + ErrorKind) m l h Init,
    frugal D m l h Init -> frugal (try_map_decoder D f) m l h Init
| fg_map_err : forall S I (D : Decoder S I) f m l h Init,
    frugal D m l h Init -> frugal (map_err_decoder D f) m l h Init
| fg_and_then : forall S0 S1 I0 I1 (D0 : Decoder S0 I0) (D1 : Decoder S1 I1) (f : I0 -> S1)
      m0 l0 h0 Init0 m1 l1 h1 Init1,
    frugal D0 m0 l0 h0 Init0 -> frugal D1 m1 l1 h1 Init1 -> (forall i, Init1 (f i)) ->
    frugal (and_then_decoder D0 D1 f) (m0 && m1) (l0 && l1) (l0 && h1)
      (fun st => exists s, Init0 s /\ st = and_then_new s)
| fg_omit : forall S I (D : Decoder S I) m l h Init,
    frugal D m l h Init -> frugal (omit_decoder D) m l false (fun st => Init (om_inner st))
| fg_collect : forall S I (D : Decoder S I) m l h Init,
    frugal D m l h Init -> frugal (collect_decoder D) m l l (fun st => exists s, Init s /\ st = collect_new s)
| fg_collectn : forall S I (D : Decoder S I) m l h Init,
    frugal D m l h Init ->
    frugal (collectn_decoder D) m l false (fun st => exists s n, Init s /\ st = collectn_new s n)
| fg_length : forall S I (D : Decoder S I) l Init,
    frugal D true l true Init ->
    frugal (length_decoder D) true false false (fun st => exists s n, Init s /\ st = length_new s n)
| fg_max : forall S I (D : Decoder S I) m l h Init,
    frugal D m l h Init -> frugal (max_decoder D) m l h (fun st => Init (mx_inner st))
| fg_peek : forall S I (D : Decoder S I) m l h Init,
    frugal D m l h Init -> frugal (peek_decoder D) m l false (fun st => exists s, Init s /\ st = peek_new s)
| fg_maybe : forall S I (D : Decoder S I) m l h Init,
    frugal D m l h Init -> frugal (maybe_decoder D) m false false (fun st => Init (my_inner st))
| fg_pair : forall S0 S1 I0 I1 (D0 : Decoder S0 I0) (D1 : Decoder S1 I1) m0 l0 h0 Init0 m1 l1 h1 Init1,
    frugal D0 m0 l0 h0 Init0 -> frugal D1 m1 l1 h1 Init1 ->
    frugal (tuple2_decoder D0 D1) (m0 && m1) (l0 && l1) (l0 && h1) (fun s => Init0 (fst s) /\ Init1 (snd s))
| fg_snoc : forall S0 S1 I0 I1 (P : DecParts S0 I0) (D1 : Decoder S1 I1) m0 l0 h0 Init0 m1 l1 h1 Init1,
    parts_ok P -> frugal (tuple_of_dec_parts P) m0 l0 h0 Init0 -> frugal D1 m1 l1 h1 Init1 ->
    frugal (tuple_of_dec_parts (dp_snoc P D1)) (m0 && m1) (l0 && l1) (l0 && h1)
      (fun s => Init0 (fst s) /\ Init1 (snd s)).

(** States reached by successful calls. *)
Inductive served {S I} (D : Decoder S I) (s : S) : S -> Prop :=
| sv_start : served D s s
| sv_decode : forall s1 fuel buf e s2 n,
    served D s s1 -> dec_decode D fuel s1 buf e = (s2, Ok n) -> served D s s2
| sv_finish : forall s1 s2 i, served D s s1 -> dec_finish D s1 = (s2, Ok i) -> served D s s2.

(** ** Encoders: specification of C73

    [filling E p l Init]: the compositions, created in a state in [Init], of which it is claimed that they use
    the whole buffer.
    - [p]: every item has at least one byte;
    - [l]: a successful call with the last buffer of the stream completes the item.
    Everything in the crate except [slice] (which suspends) and [last] (which starts its item only in the call
    after the one in which the previous item was completed), and [repeat] only over encoders with [p]. *)
Inductive filling : forall S I : Type, Encoder S I -> bool -> bool -> (S -> Prop) -> Prop :=
| fl_weaken : forall S I (E : Encoder S I) p l Init (Init' : S -> Prop),
    filling E p l Init -> (forall s, Init' s -> Init s) -> filling E p l Init'
| fl_bytes : forall B (BX : ByteBox B), filling (bytes_encoder BX) false true (fun _ => True)
| fl_null : filling null_encoder true true (fun _ => True)
| fl_num : forall T (item : T -> list byte + ErrorKind), (forall t b, item t = inl b -> b <> []) ->
    filling (num_encoder item) true true (fun s => s = num_enc_new)
| fl_pad : filling pad_encoder false true (fun _ => True)
| fl_mono : forall I (f : MonoEncode I), filling (mono_encoder f) false false (fun s => s = mono_enc_new)
| fl_map_err : forall S I (E : Encoder S I) f p l Init, filling E p l Init -> filling (map_err_encoder E f) p l Init
| fl_map_from : forall S I T (E : Encoder S I) (f : T -> I) p l Init,
    filling E p l Init -> filling (map_from_encoder E f) p l Init
| fl_try_map_from : forall S I T (E : Encoder S I) (f : T -> I + ErrorKind) p l Init,
    filling E p l Init -> filling (try_map_from_encoder E f) p l Init
| fl_optional : forall S I (E : Encoder S I) p l Init, filling E p l Init -> filling (optional_encoder E) p l Init
| fl_repeat : forall S I (E : Encoder S I) l Init,
    filling E true l Init -> filling (repeat_encoder E) false l (fun st => Init (rp_inner st))
| fl_length : forall S I (E : Encoder S I) p l Init,
    filling E p l Init -> filling (length_encoder E) true true (fun st => Init (ln_inner st))
| fl_max : forall S I (E : Encoder S I) p l Init,
    filling E p l Init -> filling (max_encoder E) p l (fun st => Init (mx_inner st))
| fl_pre : forall S I (E : Encoder S I), filling (pre_encoder E) false true (fun _ => True)
| fl_pair : forall S0 S1 I0 I1 (E0 : Encoder S0 I0) (E1 : Encoder S1 I1) p0 l0 Init0 p1 l1 Init1,
    filling E0 p0 l0 Init0 -> filling E1 p1 l1 Init1 ->
    filling (tuple2_encoder E0 E1) (p0 && p1) (l0 && l1) (fun s => Init0 (fst s) /\ Init1 (snd s))
| fl_snoc : forall S0 S1 I0 I1 (P : EncParts S0 I0) (E1 : Encoder S1 I1) p0 l0 Init0 p1 l1 Init1,
    eparts_ok P -> filling (tuple_of_enc_parts P) p0 l0 Init0 -> filling E1 p1 l1 Init1 ->
    filling (tuple_of_enc_parts (ep_snoc P E1)) (p0 && p1) (l0 && l1) (fun s => Init0 (fst s) /\ Init1 (snd s)).

(** States reached by any calls, successful or not. *)
Inductive worked {S I} (E : Encoder S I) (s : S) : S -> Prop :=
| wk_new : worked E s s
| wk_encode : forall s1 fuel buf e s2 buf' r,
    worked E s s1 -> enc_encode E fuel s1 buf e = (s2, buf', r) -> worked E s s2
| wk_start : forall s1 fuel i s2 r,
    worked E s s1 -> enc_start E fuel s1 i = (s2, r) -> worked E s s2.
