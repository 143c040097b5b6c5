(** * C67: components that can be used only once, and further limits of the combinators
      (refutations that belong to C22, C26, C27, C29, C32, C38, C40, C41). *)
From Coq Require Import Lia ZifyBool ZifyNat ZifyN.
From Verif Require Import LocalProofs Observe Examples Drive.
Set Implicit Arguments.

(** ** C67: what a component does after it has handed out its only item *)

(** A history of calls all of which are answered in the same way. *)
Definition always_answers {S I} (D : Decoder S I) (s : S) (on_decode : res nat) (on_finish : res I) : Prop :=
  forall ops, dec_trace D s ops =
    map (fun o => match o with
                  | OpDecode _ _ _ => ObDecode on_decode
                  | OpFinish => ObFinish on_finish
                  | OpReq => ObReq (Ok (Finite 0))
                  | OpIdle => ObIdle true
                  end) ops.

(** [BytesDecoder] gives its buffer away with the item; then every call is refused, until [set_bytes]
    gives it another buffer. *)
Theorem C67_bytes_decoder : forall B (BX : ByteBox B) s s' b,
  dec_finish (bytes_decoder BX) s = (s', Ok b) ->
  always_answers (bytes_decoder BX) s' (Err DecoderTerminated) (Err DecoderTerminated) /\
  forall b', bytes_dec_set s' b' = bytes_dec_new b'.
Proof.
  intros B BX s s' b H. split; [|reflexivity].
  assert (X : bd_bytes s' = None).
  { cbn in H. unfold bytes_finish in H. destruct (_ =? _); [|discriminate]. destruct (bd_bytes s); inversion H. reflexivity. }
  intros ops. induction ops as [|o ops IH]; auto. cbn [map]. destruct o; cbn [dec_trace dec_do].
  - cbn. unfold bytes_decode. rewrite X. cbn. now rewrite IH.
  - cbn. unfold bytes_finish, bytes_dec_exact. rewrite X. cbn. now rewrite IH.
  - cbn. rewrite X. now rewrite IH.
  - cbn. unfold bytes_dec_exact. rewrite X. cbn. now rewrite IH.
Qed.
Print Assumptions C67_bytes_decoder.
(** The same for [BytesDecoder::default()]. *)
Theorem C67_bytes_decoder_default : forall B (BX : ByteBox B),
  always_answers (bytes_decoder BX) bytes_dec_default (Err DecoderTerminated) (Err DecoderTerminated).
Proof.
  intros B BX ops. induction ops as [|o ops IH]; auto. cbn [map]. destruct o; cbn in *; now rewrite IH.
Qed.
Print Assumptions C67_bytes_decoder_default.

(** [collectn(n)] counts down once: afterwards it takes nothing and hands out empty collections, until
    [set_remaining_items]. *)
Theorem C67_collectn : forall S I (D : Decoder S I) st st' l,
  dec_finish (collectn_decoder D) st = (st', Ok l) ->
  always_answers (collectn_decoder D) st' (Ok 0) (Ok []) /\
  forall n, collectn_set st' n = collectn_new (cn_inner st) n.
Proof.
  intros S I D [s n l0] st' l H. cbn in H. destruct (Nat.eqb_spec n 0) as [->|]; [|discriminate]. inversion H; subst. clear H.
  split; [|reflexivity]. intros ops. induction ops as [|o ops IH]; auto. cbn [map].
  destruct o; cbn [dec_trace dec_do]; cbn in *; now rewrite IH.
Qed.
Print Assumptions C67_collectn.

(** The encoder of [length(n)] accepts one item: once the [n] bytes are written every later
    [start_encoding] and [set_expected_bytes] is refused and nothing is written any more, whatever is
    called, for any composition inside. *)
Inductive later {S I} (E : Encoder S I) (st : Length S) : Length S -> Prop :=
| later_nil : later E st st
| later_start : forall st1 fuel i st2 r, later E st st1 ->
    enc_start (length_encoder E) fuel st1 i = (st2, r) -> later E st st2
| later_encode : forall st1 fuel buf e st2 buf' r, later E st st1 ->
    enc_encode (length_encoder E) fuel st1 buf e = (st2, buf', r) -> later E st st2
| later_set : forall st1 n st2 r, later E st st1 -> length_set_expected st1 n = (st2, r) -> later E st st2.
Theorem C67_length_encoder : forall S I (E : Encoder S I) B l Item Conf Init st,
  composed_enc E B l Item Conf Init ->
  enc_idle (length_encoder E) st = true -> (0 < ln_expected st)%N ->
  forall st', later E st st' ->
    enc_idle (length_encoder E) st' = true /\
    (forall fuel i, enc_start (length_encoder E) fuel st' i = (st', Err EncoderFull)) /\
    (forall n, length_set_expected st' n = (st', Err IncompleteDecoding)) /\
    (forall fuel buf e st2 buf' k, enc_encode (length_encoder E) fuel st' buf e = (st2, buf', Ok k) -> k = 0 /\ buf' = buf).
Proof.
  intros S I E B l Item Conf Init st C id P. pose proof (composed_enc_wo C) as WO.
  assert (Z : forall fuel st1 buf e st2 buf' r, ln_remaining st1 = 0%N ->
    enc_encode (length_encoder E) fuel st1 buf e = (st2, buf', r) ->
    ln_remaining st2 = 0%N /\ ln_expected st2 = ln_expected st1 /\ forall k, r = Ok k -> k = 0 /\ buf' = buf).
  { intros fuel [s1 ex rm] buf e st2 buf' r R X. cbn in *. subst rm. unfold length_encode in X.
    cbn [ln_inner ln_expected ln_remaining] in X.
    replace (len buf <? 0)%N with false in X by lia. cbn [andb N.to_nat firstn skipn] in X.
    destruct (@wo_use _ _ E WO fuel s1 [] [] (eos_new true) eq_refl) as (s' & b & b2 & q & X1 & _ & L1 & _ & A).
    rewrite X1 in X. destruct b; [|discriminate]. cbn [app] in X. destruct q as [n| | |].
    - destruct (A n eq_refl) as (A1 & _). cbn in A1. destruct n; [|lia]. cbn in X. rewrite andb_false_r in X.
      inversion X; subst. cbn. repeat split; intros; congruence.
    - inversion X; subst. cbn. split; auto. split; auto. discriminate.
    - inversion X; subst. cbn. split; auto. split; auto. discriminate.
    - inversion X; subst. cbn. split; auto. split; auto. discriminate. }
  assert (K : forall st', later E st st' -> ln_remaining st' = 0%N /\ ln_expected st' = ln_expected st).
  { induction 1 as [|st1 fuel i st2 r _ [IH1 IH2] X|st1 fuel buf e st2 buf' r _ [IH1 IH2] X|st1 n st2 r _ [IH1 IH2] X].
    - cbn in id. split; auto. lia.
    - cbn in X. replace (ln_remaining st1 =? ln_expected st1)%N with false in X by lia. inversion X; subst. auto.
    - destruct (Z _ _ _ _ _ _ _ IH1 X) as (Z1 & Z2 & _). split; congruence.
    - unfold length_set_expected in X. replace (ln_remaining st1 =? ln_expected st1)%N with false in X by lia. inversion X; subst. auto. }
  intros st' H. destruct (K _ H) as [R EX]. split; [|split; [|split]].
  - cbn. lia.
  - intros fuel i. cbn. now replace (ln_remaining st' =? ln_expected st')%N with false by lia.
  - intros n. unfold length_set_expected. now replace (ln_remaining st' =? ln_expected st')%N with false by lia.
  - intros fuel buf e st2 buf' k X. destruct (Z _ _ _ _ _ _ _ R X) as (_ & _ & Q). auto.
Qed.
Print Assumptions C67_length_encoder.

Example C67_example :
  let E := length_encoder (bytes_encoder vec_box) in
  let s1 := fst (enc_start E 9 (length_new bytes_enc_new 2) [x41; x42]) in
  let s2 := fst (fst (enc_encode E 9 s1 [x00; x00; x00] (eos_new false))) in
  snd (fst (enc_encode E 9 s1 [x00; x00; x00] (eos_new false))) = [x41; x42; x00] /\
  enc_idle E s2 = true /\ (0 < ln_expected s2)%N /\
  snd (enc_start E 9 s2 [x43; x44]) = Err EncoderFull /\
  dec_trace (bytes_decoder vec_box) (bytes_dec_new [x00; x00])
    [OpDecode 0 [x01; x02; x03] Unknown; OpFinish; OpDecode 0 [x03] Unknown]
    = [ObDecode (Ok 2); ObFinish (Ok [x01; x02]); ObDecode (Err DecoderTerminated)].
Proof. vm_compute. repeat split; reflexivity. Qed.

(** ** Further limits *)

(** A fresh encoder of [length(n)], [n > 0], is not idle although it has no item.  Hence [optional()] over
    it cannot encode [None] ... *)
Theorem C27_optional_length_refuted : forall fuel n, (0 < n <= isize_max)%N ->
  snd (encode_into_bytes (optional_encoder (length_encoder (bytes_encoder vec_box))) fuel
         (length_new bytes_enc_new n) None) = Err InvalidInput.
Proof.
  intros fuel n L. unfold encode_into_bytes. cbn [enc_start optional_encoder enc_req length_encoder ln_remaining length_new].
  replace (n <=? isize_max)%N with true by lia. cbn [enc_encode optional_encoder length_encoder].
  unfold length_encode; cbn [ln_inner ln_expected ln_remaining length_new].
  unfold len. rewrite repeat_length, N2Nat.id, N.ltb_irrefl. cbn [andb].
  rewrite firstn_all2 by (rewrite repeat_length; lia). cbn -[repeat skipn u64_sub N.eqb].
  unfold u64_sub. cbn [N.of_nat]. replace (0 <=? n)%N with true by lia. rewrite N.sub_0_r.
  replace (n =? 0)%N with false by lia. reflexivity.
Qed.
Print Assumptions C27_optional_length_refuted.
(** ... and [repeat()] over it never starts the first item: it fails for every list of items. *)
Theorem C26_length_refuted : forall fuel n items, (0 < n)%N ->
  snd (encode_into_bytes (repeat_encoder (length_encoder (bytes_encoder vec_box))) (S (S fuel))
         (repeat_new (length_new bytes_enc_new n)) items) = Err InvalidInput.
Proof.
  intros fuel n items L. unfold encode_into_bytes. cbn [enc_start repeat_encoder repeat_new repeat_idle rp_items rp_inner enc_req].
  unfold encode_all. generalize (repeat x00 io_buf_size). intros buf. cbn [encode_all_loop enc_idle repeat_encoder repeat_idle rp_items].
  cbn [enc_encode repeat_encoder repeat_loop rp_items rp_inner].
  destruct items as [|i items]; cbn [repeat_pull enc_idle length_encoder ln_remaining length_new];
    replace (n =? 0)%N with false by lia; cbn [slice_from Nat.leb skipn];
    cbn [enc_encode length_encoder]; unfold length_encode; cbn [ln_inner ln_expected ln_remaining length_new];
    rewrite andb_false_r; cbn; unfold u64_sub; replace (0 <=? n)%N with true by lia; cbn; rewrite N.sub_0_r;
    replace (n =? 0)%N with false by lia; reflexivity.
Qed.
Print Assumptions C26_length_refuted.
(** [last(item)] over an item without bytes: [encode_all] takes the call that only completes the pending
    empty item for a lack of progress. *)
Theorem C32_encode_all_refuted : exists s,
  enc_start (bytes_encoder vec_box) 9 bytes_enc_new [] = (s, Ok tt) /\
  snd (encode_all (last_encoder (bytes_encoder vec_box)) 2000 (last_new s [x41]) (mkWriter [] [])) = Err Other.
Proof. eexists. split; [reflexivity|]. vm_compute. reflexivity. Qed.
Print Assumptions C32_encode_all_refuted.
(** [collectn(n)] of items without bytes wants a byte it does not need. *)
Theorem C22_empty_items_refuted : forall fuel n, 0 < n ->
  snd (dec_decode (collectn_decoder null_decoder) fuel (collectn_new tt n) [] (eos_new true)) = Err UnexpectedEos /\
  forall x, exists st, dec_decode (collectn_decoder null_decoder) fuel (collectn_new tt n) [x] (eos_new true) = (st, Ok 0) /\
    snd (dec_finish (collectn_decoder null_decoder) st) = Ok (repeat tt n).
Proof.
  intros fuel n L. destruct n as [|n]; [lia|]. split; [reflexivity|]. intros x.
  assert (G : forall m acc, collectn_loop null_decoder fuel m tt acc 0 [x] (eos_new true)
                = (mkCollectN tt 0 (acc ++ repeat tt m), Ok 0)).
  { induction m as [|m IH]; intros acc; cbn.
    - now rewrite app_nil_r.
    - rewrite IH. now rewrite <- app_assoc. }
  eexists. split; [apply (G (S n) [])|reflexivity].
Qed.
Print Assumptions C22_empty_items_refuted.
(** [decode_exact] with [maybe_eos()] at the end of a stream that ends between two items does not return. *)
Theorem C29_decode_exact_refuted : forall fuel ifuel,
  snd (decode_exact (maybe_decoder (copy_decoder vec_box)) fuel ifuel
         (maybe_new (copy_dec_new [x00; x00])) (mkReader [] [])) = OutOfFuel.
Proof.
  induction fuel as [|fuel IH]; intros ifuel; [reflexivity|]. cbn [decode_exact].
  change (dec_req (maybe_decoder (copy_decoder vec_box)) (maybe_new (copy_dec_new [x00; x00]))) with (Ok (Finite 2)).
  cbn. apply IH.
Qed.
Print Assumptions C29_decode_exact_refuted.
(** [encode_all] of a padding never returns, with any writer that does not fail. *)
Theorem C40_padding_refuted : forall fuel b w, Forall takes (wr_plan w) ->
  snd (encode_all pad_encoder fuel (Some b) w) = OutOfFuel.
Proof.
  intros fuel b w T. unfold encode_all. generalize fuel at 2. intros ifuel.
  assert (L : 0 < length (repeat x00 io_buf_size)) by (rewrite repeat_length; unfold io_buf_size; lia).
  revert L. generalize (repeat x00 io_buf_size). intros buf L.
  revert buf L w T. induction fuel as [|fuel IH]; intros buf L w T; [reflexivity|].
  cbn [encode_all_loop enc_idle pad_encoder enc_encode]. unfold pad_encode. change (is_reached (eos_new false)) with false. cbv iota.
  rewrite map_length, Nat.leb_refl. destruct (wr_write_all_ok w (firstn (length buf) (map (fun _ => b) buf)) T) as (plan' & -> & T').
  cbn [negb andb]. replace (length buf =? 0) with false by lia. apply IH; auto. now rewrite map_length.
Qed.
Print Assumptions C40_padding_refuted.
(** [encode_into_bytes] refuses an endless item, but only after it was started: the encoder stays busy. *)
Theorem C41_infinite_refuted : forall fuel b, exists s,
  encode_into_bytes pad_encoder fuel None b = (s, Err InvalidInput) /\ enc_idle pad_encoder s = false /\ snd (encode_into_bytes pad_encoder fuel s b) = Err EncoderFull.
Proof. intros fuel b. eexists. repeat split; reflexivity. Qed.
Print Assumptions C41_infinite_refuted.
