(** * Termination of decoders in every state: specification.

    [steady D b Init]: [D] is a composition of the crate's decoders in which [collect] is only applied to
    decoders whose items take at least one byte; [b] says that this is so for [D] itself; [Init] are the states
    as created.  Nothing is assumed about the calls: they may fail, and be continued after a failure. *)
From Verif Require Export Live DecComb.
Set Implicit Arguments.

Inductive steady : forall S I : Type, Decoder S I -> bool -> (S -> Prop) -> Prop :=
| st_weaken : forall S I (D : Decoder S I) b b' Init (Init' : S -> Prop),
    steady D b Init -> (b' = true -> b = true) -> (forall s, Init' s -> Init s) -> steady D b' Init'
(** src/bytes.rs *)
| st_copy : forall B (BX : ByteBox B) b0, box_ok BX ->
    steady (copy_decoder BX) (0 <? length (bx_ref BX b0)) (fun s => s = copy_dec_new b0)
| st_bytes : forall B (BX : ByteBox B), box_ok BX ->
    steady (bytes_decoder BX) true (fun s => exists b, 0 < length (bx_ref BX b) /\ s = bytes_dec_new b)
| st_bytes_any : forall B (BX : ByteBox B), steady (bytes_decoder BX) false (fun _ => True)
| st_rest : steady rem_decoder true (fun s => s = rem_dec_new)
(** src/null.rs, src/padding.rs, src/monolithic.rs *)
| st_null : steady null_decoder false (fun _ => True)
| st_pad : steady pad_decoder true (fun s => exists b, s = pad_dec_new b)
| st_mono : forall I (f : MonoDecode I), steady (mono_decoder f) false (fun _ => True)
(** src/fixnum.rs, [Utf8Decoder] *)
| st_num : forall T (item : list byte -> T) width,
    steady (num_decoder item) (0 <? width) (fun s => s = num_dec_new width)
| st_utf8 : forall S (D : Decoder S (list byte)) b Init, steady D b Init -> steady (utf8_decoder D) b Init
(** src/combinator.rs *)
| st_map : forall S I T (D : Decoder S I) (f : I -> T) b Init,
    steady D b Init -> steady (map_decoder D f) b Init
| st_try_map : forall S I T (D : Decoder S I) (f : I -> T + ErrorKind) b Init,
    steady D b Init -> steady (try_map_decoder D f) b Init
| st_map_err : forall S I (D : Decoder S I) f b Init,
    steady D b Init -> steady (map_err_decoder D f) b Init
| st_and_then : forall S0 S1 I0 I1 (D0 : Decoder S0 I0) (D1 : Decoder S1 I1) (f : I0 -> S1) b0 b1 Init0 Init1,
    steady D0 b0 Init0 -> steady D1 b1 Init1 -> (forall i, Init1 (f i)) ->
    steady (and_then_decoder D0 D1 f) (b0 || b1) (fun st => Init0 (at_inner0 st) /\ at_inner1 st = None)
| st_omit : forall S I (D : Decoder S I) b Init present,
    steady D b Init ->
    steady (omit_decoder D) (b && present) (fun st => Init (om_inner st) /\ (present = true -> om_omit st = false))
| st_collect : forall S I (D : Decoder S I) Init,
    steady D true Init -> steady (collect_decoder D) false (fun st => exists s, Init s /\ st = collect_new s)
| st_collectn : forall S I (D : Decoder S I) b Init,
    steady D b Init -> steady (collectn_decoder D) false (fun st => exists s n, Init s /\ st = collectn_new s n)
| st_length : forall S I (D : Decoder S I) b Init positive,
    steady D b Init ->
    steady (length_decoder D) positive
      (fun st => exists s n, Init s /\ st = length_new s n /\ (positive = true -> 0 < n)%N)
| st_max : forall S I (D : Decoder S I) b Init,
    steady D b Init -> steady (max_decoder D) b (fun st => Init (mx_inner st))
| st_slice : forall S I (D : Decoder S I) b Init,
    steady D b Init -> steady (slice_decoder D) false (fun st => Init (sl_inner st))
| st_peek : forall S I (D : Decoder S I) b Init,
    steady D b Init -> steady (peek_decoder D) b (fun st => exists s, Init s /\ st = peek_new s)
| st_maybe : forall S I (D : Decoder S I) b Init,
    steady D b Init -> steady (maybe_decoder D) b (fun st => Init (my_inner st))
(** src/tuple.rs: two components; one more component *)
| st_pair : forall S0 S1 I0 I1 (D0 : Decoder S0 I0) (D1 : Decoder S1 I1) b0 b1 Init0 Init1,
    steady D0 b0 Init0 -> steady D1 b1 Init1 ->
    steady (tuple2_decoder D0 D1) (b0 || b1) (fun s => Init0 (fst s) /\ Init1 (snd s))
| st_snoc : forall S0 S1 I0 I1 (P : DecParts S0 I0) (D1 : Decoder S1 I1) b0 b1 Init0 Init1,
    parts_ok P -> steady (tuple_of_dec_parts P) b0 Init0 -> steady D1 b1 Init1 ->
    steady (tuple_of_dec_parts (dp_snoc P D1)) (b0 || b1) (fun s => Init0 (fst s) /\ Init1 (snd s)).
