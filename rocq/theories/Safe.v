(** * Safety: the compositions a user can build, and arbitrary histories of calls.

    [composed] and [composed_enc] describe which decoders and encoders are considered: every
    primitive of the crate, every decoder or encoder of the user that keeps the contract of
    [Contract.v], and everything built from them with the combinators of the crate. *)
From Verif Require Export Contract Comb Tuple Fixnum Utf8 DecPrim DecComb EncComb.
Set Implicit Arguments.

(** [composed D M B quiet Item Conf Init]: [D] is a composition of the crate's decoders and
    - [M]: the largest end-of-stream distance [D] may be told (smaller than [u64::MAX] if there is
      a decoder in it that reserves memory for it);
    - [B]: an upper bound of a finite [requiring_bytes];
    - [quiet]: an idle [D] consumes nothing;
    - [Item]: what is known about the items it returns;
    - [Conf s s']: the state may be changed from [s] to [s'] by one of the setters of the crate, on
      [D] itself or on a part of it;
    - [Init]: the states as created. *)
Inductive composed : forall S I : Type, Decoder S I -> N -> N -> bool -> (I -> Prop) ->
    (S -> S -> Prop) -> (S -> Prop) -> Prop :=
| dcm_weaken : forall S I (D : Decoder S I) M M' B B' q q' (Item Item' : I -> Prop) Conf
    (Conf' : S -> S -> Prop) Init (Init' : S -> Prop),
    composed D M B q Item Conf Init ->
    (M' <= M)%N -> (B <= B')%N -> (q' = true -> q = true) -> (forall i, Item i -> Item' i) ->
    (forall s s', Conf' s s' -> Conf s s') -> (forall s, Init' s -> Init s) ->
    composed D M' B' q' Item' Conf' Init'
(** the user's own implementation of [Decode] *)
| dcm_own : forall S I (D : Decoder S I) M B q Item Conf Init,
    dec_safe D M B q Item Conf Init -> fuel_free D -> composed D M B q Item Conf Init
(** src/bytes.rs: [CopyableBytesDecoder], [BytesDecoder] (with [set_bytes]), [RemainingBytesDecoder] *)
| dcm_copy : forall B (BX : ByteBox B) b0, box_ok BX ->
    composed (copy_decoder BX) u64_max (len (bx_ref BX b0)) true
      (fun b => length (bx_ref BX b) = length (bx_ref BX b0)) (fun _ _ => False)
      (fun s => s = copy_dec_new b0)
| dcm_bytes : forall B (BX : ByteBox B) mx, box_ok BX ->
    composed (bytes_decoder BX) u64_max mx true (fun b => (len (bx_ref BX b) <= mx)%N)
      (fun s s' => exists b, (len (bx_ref BX b) <= mx)%N /\ s' = bytes_dec_set s b)
      (fun s => s = bytes_dec_default \/
                exists b, (len (bx_ref BX b) <= mx)%N /\ s = bytes_dec_new b)
| dcm_rest : composed rem_decoder phys 0 true (fun _ => True) (fun _ _ => False)
      (fun s => s = rem_dec_new)
(** src/null.rs, src/padding.rs (with [set_expected_byte]), src/monolithic.rs *)
| dcm_null : composed null_decoder u64_max 0 true (fun _ => True) (fun _ _ => False) (fun _ => True)
| dcm_pad : composed pad_decoder u64_max 0 true (fun _ => True)
      (fun s s' => exists b, s' = pad_dec_set s b) (fun s => exists b, s = pad_dec_new b)
| dcm_mono : forall I (f : MonoDecode I),
    composed (mono_decoder f) u64_max 0 false (fun _ => True) (fun _ _ => False)
      (fun s => s = mono_dec_new)
(** src/fixnum.rs, [Utf8Decoder] *)
| dcm_num : forall T (item : list byte -> T) width,
    composed (num_decoder item) u64_max (N.of_nat width) true
      (fun t => exists w, length w = width /\ t = item w) (fun _ _ => False)
      (fun s => s = num_dec_new width)
| dcm_utf8 : forall S (D : Decoder S (list byte)) M B q Item Conf Init,
    composed D M B q Item Conf Init ->
    composed (utf8_decoder D) M B q (fun _ => True) Conf Init
(** src/combinator.rs *)
| dcm_map : forall S I T (D : Decoder S I) (f : I -> T) M B q Item Conf Init,
    composed D M B q Item Conf Init ->
    composed (map_decoder D f) M B q (fun t => exists i, Item i /\ t = f i) Conf Init
| dcm_try_map : forall S I T (D : Decoder S I) (f : I -> T + ErrorKind) M B q Item Conf Init,
    composed D M B q Item Conf Init ->
    composed (try_map_decoder D f) M B q (fun t => exists i, Item i /\ f i = inl t) Conf Init
| dcm_map_err : forall S I (D : Decoder S I) f M B q Item Conf Init,
    composed D M B q Item Conf Init -> composed (map_err_decoder D f) M B q Item Conf Init
| dcm_and_then : forall S0 S1 I0 I1 (D0 : Decoder S0 I0) (D1 : Decoder S1 I1) (f : I0 -> S1)
    M B q0 q1 Item0 Item1 Conf0 Conf1 Init0 Init1,
    composed D0 M B q0 Item0 Conf0 Init0 -> composed D1 M B q1 Item1 Conf1 Init1 ->
    (forall i, Item0 i -> Init1 (f i)) ->
    composed (and_then_decoder D0 D1 f) M B true Item1
      (fun st st' =>
         (Conf0 (at_inner0 st) (at_inner0 st') /\ at_inner1 st' = at_inner1 st) \/
         (at_inner0 st' = at_inner0 st /\
          exists s1 s1', at_inner1 st = Some s1 /\ at_inner1 st' = Some s1' /\ Conf1 s1 s1'))
      (fun st => Init0 (at_inner0 st) /\ at_inner1 st = None)
| dcm_omit : forall S I (D : Decoder S I) M B q Item Conf Init,
    composed D M B q Item Conf Init ->
    composed (omit_decoder D) M B q (fun o => forall i, o = Some i -> Item i)
      (fun st st' => (exists b, st' = omit_set st b) \/
                     (Conf (om_inner st) (om_inner st') /\ om_omit st' = om_omit st))
      (fun st => Init (om_inner st))
| dcm_collect : forall S I (D : Decoder S I) M B q Item Conf Init,
    composed D M B q Item Conf Init ->
    composed (collect_decoder D) M B true (Forall Item)
      (fun st st' => Conf (cl_inner st) (cl_inner st') /\ cl_items st' = cl_items st /\
                     cl_eos st' = cl_eos st)
      (fun st => exists s, Init s /\ st = collect_new s)
| dcm_collectn : forall S I (D : Decoder S I) M B q Item Conf Init,
    composed D M B q Item Conf Init ->
    composed (collectn_decoder D) M B true (Forall Item)
      (fun st st' => (exists n, st' = collectn_set st n) \/
                     (Conf (cn_inner st) (cn_inner st') /\ cn_remaining st' = cn_remaining st /\
                      cn_items st' = cn_items st))
      (fun st => exists s n, Init s /\ st = collectn_new s n)
(** the length may be anything the inner decoder may be told *)
| dcm_length : forall S I (D : Decoder S I) M B q Item Conf Init,
    composed D M B q Item Conf Init ->
    composed (length_decoder D) u64_max M q Item
      (fun st st' => (exists n, (n <= M)%N /\ st' = fst (length_set_expected st n)) \/
                     (Conf (ln_inner st) (ln_inner st') /\ ln_expected st' = ln_expected st /\
                      ln_remaining st' = ln_remaining st))
      (fun st => exists s n, Init s /\ (n <= M)%N /\ st = length_new s n)
| dcm_max : forall S I (D : Decoder S I) M B q Item Conf Init,
    composed D M B q Item Conf Init ->
    composed (max_decoder D) M B q Item
      (fun st st' => (exists n, (n <= u64_max)%N /\ st' = fst (max_set st n)) \/
                     (Conf (mx_inner st) (mx_inner st') /\ mx_consumed st' = mx_consumed st /\
                      mx_max st' = mx_max st))
      (fun st => exists s n, Init s /\ (n <= u64_max)%N /\ st = max_new s n)
| dcm_slice : forall S I (D : Decoder S I) M B q Item Conf Init,
    composed D M B q Item Conf Init ->
    composed (slice_decoder D) M B q Item
      (fun st st' => (exists n, st' = slice_set st n) \/
                     (Conf (sl_inner st) (sl_inner st') /\ sl_consumable st' = sl_consumable st))
      (fun st => exists s, Init s /\ st = slice_new s)
| dcm_peek : forall S I (D : Decoder S I) M B q Item Conf Init,
    composed D M B q Item Conf Init ->
    composed (peek_decoder D) M B true Item
      (fun st st' => Conf (pk_inner st) (pk_inner st') /\ pk_item st' = pk_item st)
      (fun st => exists s, Init s /\ st = peek_new s)
| dcm_maybe : forall S I (D : Decoder S I) M B q Item Conf Init,
    composed D M B q Item Conf Init ->
    composed (maybe_decoder D) M B q Item
      (fun st st' => Conf (my_inner st) (my_inner st') /\ my_started st' = my_started st)
      (fun st => exists s, Init s /\ st = maybe_new s)
(** src/tuple.rs: two components; one more component *)
| dcm_pair : forall S0 S1 I0 I1 (D0 : Decoder S0 I0) (D1 : Decoder S1 I1)
    M B0 B1 q0 q1 Item0 Item1 Conf0 Conf1 Init0 Init1,
    composed D0 M B0 q0 Item0 Conf0 Init0 -> composed D1 M B1 q1 Item1 Conf1 Init1 ->
    (B0 + B1 <= u64_max)%N ->
    composed (tuple2_decoder D0 D1) M (B0 + B1) true
      (fun i => Item0 (fst i) /\ Item1 (snd i))
      (fun s s' => (Conf0 (fst s) (fst s') /\ snd s' = snd s) \/
                   (fst s' = fst s /\ Conf1 (snd s) (snd s')))
      (fun s => Init0 (fst s) /\ Init1 (snd s))
| dcm_snoc : forall S0 S1 I0 I1 (P : DecParts S0 I0) (D1 : Decoder S1 I1)
    M B0 B1 q0 q1 Item0 Item1 Conf0 Conf1 Init0 Init1,
    parts_ok P ->
    composed (tuple_of_dec_parts P) M B0 q0 Item0 Conf0 Init0 ->
    composed D1 M B1 q1 Item1 Conf1 Init1 ->
    (B0 + B1 <= u64_max)%N ->
    composed (tuple_of_dec_parts (dp_snoc P D1)) M (B0 + B1) true
      (fun i => Item0 (fst i) /\ Item1 (snd i))
      (fun s s' => (Conf0 (fst s) (fst s') /\ snd s' = snd s) \/
                   (fst s' = fst s /\ Conf1 (snd s) (snd s')))
      (fun s => Init0 (fst s) /\ Init1 (snd s)).

(** ** Any history of calls to a decoder

    [calls D M Conf s0 t s]: some sequence of calls leads from [s0] to [s]: [decode] with any
    buffer and any hint, [finish_decoding], setters; in any order, also on an idle decoder and
    after errors.  Only a panic or an endless loop ends the history.  [t] is the total number of
    bytes offered. *)
Inductive calls {S I} (D : Decoder S I) (M : N) (Conf : S -> S -> Prop) (s0 : S) : N -> S -> Prop :=
| calls_start : calls D M Conf s0 0 s0
| calls_decode : forall t s fuel buf e s' r,
    calls D M Conf s0 t s -> (t + len buf <= phys)%N -> eos_fits M buf e ->
    dec_decode D fuel s buf e = (s', r) -> r <> Panic -> r <> OutOfFuel ->
    calls D M Conf s0 (t + len buf) s'
| calls_finish : forall t s s' r,
    calls D M Conf s0 t s -> dec_finish D s = (s', r) -> r <> Panic -> r <> OutOfFuel ->
    calls D M Conf s0 t s'
| calls_set : forall t s s',
    calls D M Conf s0 t s -> Conf s s' -> calls D M Conf s0 t s'.

(** ** Encoders

    [composed_enc E B light Item Conf Init]: as above; [Item] are the items that may be passed
    (of a size the machine can hold), [B] bounds a finite [requiring_bytes], [light]: there is no
    [max_bytes] in it. *)
Inductive composed_enc : forall S I : Type, Encoder S I -> N -> bool -> (I -> Prop) ->
    (S -> S -> Prop) -> (S -> Prop) -> Prop :=
| ecm_weaken : forall S I (E : Encoder S I) B B' l l' (Item Item' : I -> Prop) Conf
    (Conf' : S -> S -> Prop) Init (Init' : S -> Prop),
    composed_enc E B l Item Conf Init ->
    (B <= B')%N -> (l' = true -> l = true) -> (forall i, Item' i -> Item i) ->
    (forall s s', Conf' s s' -> Conf s s') -> (forall s, Init' s -> Init s) ->
    composed_enc E B' l' Item' Conf' Init'
(** the user's own implementation of [Encode] *)
| ecm_own : forall S I (E : Encoder S I) B l Item Conf Init,
    enc_safe E B l Item Conf Init -> fuel_free_enc E -> wo E -> composed_enc E B l Item Conf Init
(** src/bytes.rs ([BytesEncoder], [Utf8Encoder]), src/null.rs, src/padding.rs, src/monolithic.rs *)
| ecm_bytes : forall B (BX : ByteBox B) mx,
    composed_enc (bytes_encoder BX) mx true (fun b => (len (bx_ref BX b) <= mx)%N)
      (fun _ _ => False) (fun s => s = bytes_enc_new)
| ecm_null : composed_enc null_encoder 0 true (fun _ => True) (fun _ _ => False) (fun _ => True)
| ecm_pad : composed_enc pad_encoder 0 true (fun _ => True) (fun _ _ => False) (fun s => s = None)
| ecm_mono : forall I (f : MonoEncode I) mx,
    composed_enc (mono_encoder f) mx true (fun i => (len (concat (fst (f i))) <= mx)%N)
      (fun _ _ => False) (fun s => s = mono_enc_new)
(** src/fixnum.rs *)
| ecm_num : forall T (item : T -> list byte + ErrorKind) width,
    composed_enc (num_encoder item) (N.of_nat width) true
      (fun t => forall w, item t = inl w -> length w = width) (fun _ _ => False)
      (fun s => s = num_enc_new)
(** src/combinator.rs *)
| ecm_map_err : forall S I (E : Encoder S I) f B l Item Conf Init,
    composed_enc E B l Item Conf Init -> composed_enc (map_err_encoder E f) B l Item Conf Init
| ecm_map_from : forall S I T (E : Encoder S I) (f : T -> I) B l Item Conf Init,
    composed_enc E B l Item Conf Init ->
    composed_enc (map_from_encoder E f) B l (fun t => Item (f t)) Conf Init
| ecm_try_map_from : forall S I T (E : Encoder S I) (f : T -> I + ErrorKind) B l Item Conf Init,
    composed_enc E B l Item Conf Init ->
    composed_enc (try_map_from_encoder E f) B l (fun t => forall i, f t = inl i -> Item i) Conf Init
| ecm_repeat : forall S I (E : Encoder S I) B l Item Conf Init,
    composed_enc E B l Item Conf Init ->
    composed_enc (repeat_encoder E) 0 l (Forall Item)
      (fun st st' => Conf (rp_inner st) (rp_inner st') /\ rp_items st' = rp_items st)
      (fun st => exists s, Init s /\ st = repeat_new s)
| ecm_optional : forall S I (E : Encoder S I) B l Item Conf Init,
    composed_enc E B l Item Conf Init ->
    composed_enc (optional_encoder E) B l (fun o => forall i, o = Some i -> Item i) Conf Init
| ecm_length : forall S I (E : Encoder S I) B l Item Conf Init mx,
    composed_enc E B l Item Conf Init ->
    composed_enc (length_encoder E) mx l Item
      (fun st st' => (exists n, (n <= mx)%N /\ st' = fst (length_set_expected st n)) \/
                     (Conf (ln_inner st) (ln_inner st') /\ ln_expected st' = ln_expected st /\
                      ln_remaining st' = ln_remaining st))
      (fun st => exists s n, Init s /\ (n <= mx)%N /\ st = length_new s n)
| ecm_max : forall S I (E : Encoder S I) B l Item Conf Init,
    composed_enc E B l Item Conf Init ->
    composed_enc (max_encoder E) B false Item
      (fun st st' => (exists n, st' = fst (max_set st n)) \/
                     (Conf (mx_inner st) (mx_inner st') /\ mx_consumed st' = mx_consumed st /\
                      mx_max st' = mx_max st))
      (fun st => exists s n, Init s /\ st = max_new s n)
(** the inner encoder's output must fit in memory *)
| ecm_pre : forall S I (E : Encoder S I) B (Item : I -> Prop) Conf Init,
    composed_enc E B true Item Conf Init -> (B <= phys)%N ->
    composed_enc (pre_encoder E) isize_max true Item
      (fun st st' => Conf (pre_inner st) (pre_inner st') /\ pre_encoded st' = pre_encoded st)
      (fun st => exists s, Init s /\ st = pre_new s)
| ecm_slice : forall S I (E : Encoder S I) B l Item Conf Init,
    composed_enc E B l Item Conf Init ->
    composed_enc (slice_encoder E) B l Item
      (fun st st' => (exists n, st' = slice_set st n) \/
                     (Conf (sl_inner st) (sl_inner st') /\ sl_consumable st' = sl_consumable st))
      (fun st => exists s, Init s /\ st = slice_new s)
| ecm_last : forall S I (E : Encoder S I) B l Item Conf Init,
    composed_enc E B l Item Conf Init ->
    composed_enc (last_encoder E) B l (fun _ => True)
      (fun st st' => Conf (la_inner st) (la_inner st') /\ la_item st' = la_item st)
      (fun st => exists s i, Init s /\ Item i /\ st = last_new s i)
(** src/tuple.rs *)
| ecm_pair : forall S0 S1 I0 I1 (E0 : Encoder S0 I0) (E1 : Encoder S1 I1)
    B0 B1 l Item0 Item1 Conf0 Conf1 Init0 Init1,
    composed_enc E0 B0 l Item0 Conf0 Init0 -> composed_enc E1 B1 l Item1 Conf1 Init1 ->
    (B0 + B1 <= u64_max)%N ->
    composed_enc (tuple2_encoder E0 E1) (B0 + B1) l
      (fun i => Item0 (fst i) /\ Item1 (snd i))
      (fun s s' => (Conf0 (fst s) (fst s') /\ snd s' = snd s) \/
                   (fst s' = fst s /\ Conf1 (snd s) (snd s')))
      (fun s => Init0 (fst s) /\ Init1 (snd s))
| ecm_snoc : forall S0 S1 I0 I1 (P : EncParts S0 I0) (E1 : Encoder S1 I1)
    B0 B1 l Item0 Item1 Conf0 Conf1 Init0 Init1,
    eparts_ok P ->
    composed_enc (tuple_of_enc_parts P) B0 l Item0 Conf0 Init0 ->
    composed_enc E1 B1 l Item1 Conf1 Init1 ->
    (B0 + B1 <= u64_max)%N ->
    composed_enc (tuple_of_enc_parts (ep_snoc P E1)) (B0 + B1) l
      (fun i => Item0 (fst i) /\ Item1 (snd i))
      (fun s s' => (Conf0 (fst s) (fst s') /\ snd s' = snd s) \/
                   (fst s' = fst s /\ Conf1 (snd s) (snd s')))
      (fun s => Init0 (fst s) /\ Init1 (snd s)).

(** Any history of calls to an encoder; [t] is the total size of the buffers offered. *)
Inductive ecalls {S I} (E : Encoder S I) (Item : I -> Prop) (Conf : S -> S -> Prop) (s0 : S)
    : N -> S -> Prop :=
| ecalls_new : ecalls E Item Conf s0 0 s0
| ecalls_start : forall t s fuel i s' r,
    ecalls E Item Conf s0 t s -> Item i ->
    enc_start E fuel s i = (s', r) -> r <> Panic -> r <> OutOfFuel ->
    ecalls E Item Conf s0 t s'
| ecalls_encode : forall t s fuel buf e s' buf' r,
    ecalls E Item Conf s0 t s -> (t + len buf <= phys)%N -> eos_fits u64_max buf e ->
    enc_encode E fuel s buf e = (s', buf', r) -> r <> Panic -> r <> OutOfFuel ->
    ecalls E Item Conf s0 (t + len buf) s'
| ecalls_set : forall t s s',
    ecalls E Item Conf s0 t s -> Conf s s' -> ecalls E Item Conf s0 t s'.
