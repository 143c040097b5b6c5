(** * Which calls to an encoder return: specification.

    [direct E st]: [E] is a composition of the crate's encoders in which no [repeat] and no
    [last] drives a [pre_encode]; [st = true] if moreover [start_encoding] does not reach a
    [pre_encode]. *)
From Verif Require Export Safe.
Set Implicit Arguments.

Inductive direct : forall S I : Type, Encoder S I -> bool -> Prop :=
| dr_bytes : forall B (BX : ByteBox B), direct (bytes_encoder BX) true
| dr_null : direct null_encoder true
| dr_pad : direct pad_encoder true
| dr_mono : forall I (f : MonoEncode I), direct (mono_encoder f) true
| dr_num : forall T (item : T -> list byte + ErrorKind), direct (num_encoder item) true
| dr_map_err : forall S I (E : Encoder S I) f st, direct E st -> direct (map_err_encoder E f) st
| dr_map_from : forall S I T (E : Encoder S I) (f : T -> I) st,
    direct E st -> direct (map_from_encoder E f) st
| dr_try_map_from : forall S I T (E : Encoder S I) (f : T -> I + ErrorKind) st,
    direct E st -> direct (try_map_from_encoder E f) st
| dr_repeat : forall S I (E : Encoder S I), direct E true -> direct (repeat_encoder E) true
| dr_optional : forall S I (E : Encoder S I) st, direct E st -> direct (optional_encoder E) st
| dr_length : forall S I (E : Encoder S I) st, direct E st -> direct (length_encoder E) st
| dr_max : forall S I (E : Encoder S I) st, direct E st -> direct (max_encoder E) st
| dr_pre : forall S I (E : Encoder S I), direct (pre_encoder E) false
| dr_slice : forall S I (E : Encoder S I) st, direct E st -> direct (slice_encoder E) st
| dr_last : forall S I (E : Encoder S I), direct E true -> direct (last_encoder E) true
| dr_pair : forall S0 S1 I0 I1 (E0 : Encoder S0 I0) (E1 : Encoder S1 I1) st0 st1,
    direct E0 st0 -> direct E1 st1 -> direct (tuple2_encoder E0 E1) (st0 && st1)
| dr_snoc : forall S0 S1 I0 I1 (P : EncParts S0 I0) (E1 : Encoder S1 I1) st0 st1,
    eparts_ok P -> direct (tuple_of_enc_parts P) st0 -> direct E1 st1 ->
    direct (tuple_of_enc_parts (ep_snoc P E1)) (st0 && st1).

(** An encoder only writes into the buffer it is given and reports no more than it holds, in any
    state, also when it fails. *)
Definition tidy {S I} (E : Encoder S I) : Prop :=
  forall fuel s buf e s' buf' r, enc_encode E fuel s buf e = (s', buf', r) ->
    length buf' = length buf /\ forall n, r = Ok n -> n <= length buf.
