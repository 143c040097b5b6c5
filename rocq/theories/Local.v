(** * What a call may depend on: specification of C65 and C66. *)
From Verif Require Export Safe.
Set Implicit Arguments.

(** A successful [decode] does not depend on the bytes it leaves in the buffer: with any others in
    their place it would have consumed the same bytes and reached the same state. *)
Definition no_lookahead {S I} (D : Decoder S I) : Prop :=
  forall fuel s buf buf' e s' n,
    dec_decode D fuel s buf e = (s', Ok n) ->
    length buf' = length buf -> firstn n buf' = firstn n buf ->
    dec_decode D fuel s buf' e = (s', Ok n).

(** [encode] depends only on the size of the buffer, not on what is in it, and the bytes after those it
    reports keep their content. *)
Definition write_only {S I} (E : Encoder S I) : Prop :=
  forall fuel s buf buf2 e s' buf' r,
    enc_encode E fuel s buf e = (s', buf', r) -> length buf2 = length buf ->
    exists buf2', enc_encode E fuel s buf2 e = (s', buf2', r) /\
      forall n, r = Ok n -> buf' = firstn n buf' ++ skipn n buf /\ buf2' = firstn n buf' ++ skipn n buf2.

(** A [MonolithicDecode] object whose result depends only on the bytes it takes from the reader (and
    on where the stream ends). *)
Definition reads_only {I} (f : MonoDecode I) : Prop :=
  forall w w' i n, f w = (inl i, n) -> length w' = length w -> firstn n w' = firstn n w -> f w' = (inl i, n).

(** The compositions of decoders: everything in the crate, with such objects only, and the user's own
    decoders that do not look ahead. *)
Inductive sequential : forall S I : Type, Decoder S I -> Prop :=
| sq_copy : forall B (BX : ByteBox B), sequential (copy_decoder BX)
| sq_bytes : forall B (BX : ByteBox B), sequential (bytes_decoder BX)
| sq_rest : sequential rem_decoder
| sq_null : sequential null_decoder
| sq_pad : sequential pad_decoder
| sq_mono : forall I (f : MonoDecode I), reads_only f -> sequential (mono_decoder f)
| sq_num : forall T (item : list byte -> T), sequential (num_decoder item)
| sq_utf8 : forall S (D : Decoder S (list byte)), sequential D -> sequential (utf8_decoder D)
| sq_map : forall S I T (D : Decoder S I) (f : I -> T), sequential D -> sequential (map_decoder D f)
| sq_try_map : forall S I T (D : Decoder S I) (f : I -> T + ErrorKind),
    sequential D -> sequential (try_map_decoder D f)
| sq_map_err : forall S I (D : Decoder S I) f, sequential D -> sequential (map_err_decoder D f)
| sq_and_then : forall S0 S1 I0 I1 (D0 : Decoder S0 I0) (D1 : Decoder S1 I1) (f : I0 -> S1),
    sequential D0 -> sequential D1 -> sequential (and_then_decoder D0 D1 f)
| sq_omit : forall S I (D : Decoder S I), sequential D -> sequential (omit_decoder D)
| sq_collect : forall S I (D : Decoder S I), sequential D -> sequential (collect_decoder D)
| sq_collectn : forall S I (D : Decoder S I), sequential D -> sequential (collectn_decoder D)
| sq_length : forall S I (D : Decoder S I), sequential D -> sequential (length_decoder D)
| sq_max : forall S I (D : Decoder S I), sequential D -> sequential (max_decoder D)
| sq_slice : forall S I (D : Decoder S I), sequential D -> sequential (slice_decoder D)
| sq_peek : forall S I (D : Decoder S I), sequential D -> sequential (peek_decoder D)
| sq_maybe : forall S I (D : Decoder S I), sequential D -> sequential (maybe_decoder D)
| sq_pair : forall S0 S1 I0 I1 (D0 : Decoder S0 I0) (D1 : Decoder S1 I1),
    sequential D0 -> sequential D1 -> sequential (tuple2_decoder D0 D1)
| sq_snoc : forall S0 S1 I0 I1 (P : DecParts S0 I0) (D1 : Decoder S1 I1),
    parts_ok P -> sequential (tuple_of_dec_parts P) -> sequential D1 ->
    sequential (tuple_of_dec_parts (dp_snoc P D1))
| sq_own : forall S I (D : Decoder S I), no_lookahead D -> sequential D.
