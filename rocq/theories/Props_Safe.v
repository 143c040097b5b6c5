(** * Theorems about arbitrary call histories: C08, C09, C10, C11, C55. *)
From Coq Require Import Lia ZifyBool ZifyNat ZifyN.
From Verif Require Import SafeEnc NumSpec NumProofs.
Set Implicit Arguments.

(** A larger bound of [requiring_bytes] also is one. *)
Lemma composed_bound : forall S I (D : Decoder S I) M B B' q Item Conf Init,
  composed D M B q Item Conf Init -> (B <= B')%N -> composed D M B' q Item Conf Init.
Proof. intros. eapply dcm_weaken; eauto. reflexivity. Qed.

(** ** C08: no decoder panics, whatever was called before *)
Theorem C08_no_panic : forall S I (D : Decoder S I) M B q Item Conf Init s0 t s,
  composed D M B q Item Conf Init -> Init s0 -> calls D M Conf s0 t s ->
  (forall fuel buf e s' r, (t + len buf <= phys)%N -> eos_fits M buf e ->
     dec_decode D fuel s buf e = (s', r) ->
     r <> Panic /\ forall n, r = Ok n -> n <= length buf) /\
  (forall s' r, dec_finish D s = (s', r) -> r <> Panic) /\
  dec_req D s <> Panic.
Proof.
  intros S I D M B q Item Conf Init s0 t s C I0 H. destruct (composed_safe C) as (Inv & DS & IN).
  pose proof (calls_inv DS (IN _ I0) H) as HI. split; [|split].
  - intros fuel buf e s' r L EF X. pose proof (ds_decode DS HI L EF X) as A.
    destruct r; try contradiction; split; try congruence. intros n [= <-]. tauto.
  - intros s' r X. pose proof (ds_finish DS HI X) as A. destruct r; try contradiction; congruence.
  - pose proof (ds_req DS HI) as A. destruct (dec_req D s); try contradiction; congruence.
Qed.
Print Assumptions C08_no_panic.

(** The items have the announced properties, [requiring_bytes] the announced bound. *)
Theorem C08_items_and_bounds : forall S I (D : Decoder S I) M B q Item Conf Init s0 t s,
  composed D M B q Item Conf Init -> Init s0 -> calls D M Conf s0 t s ->
  (forall s' i, dec_finish D s = (s', Ok i) -> Item i) /\
  (forall n, dec_req D s = Ok (Finite n) -> (n <= B)%N).
Proof.
  intros S I D M B q Item Conf Init s0 t s C I0 H. destruct (composed_safe C) as (Inv & DS & IN).
  pose proof (calls_inv DS (IN _ I0) H) as HI. split.
  - intros s' i X. pose proof (ds_finish DS HI X) as A. destruct A as (A & _). exact A.
  - intros n X. pose proof (ds_req DS HI) as A. now rewrite X in A.
Qed.
Print Assumptions C08_items_and_bounds.

(** ** C10: an idle decoder consumes nothing *)
Theorem C10_idle_consumes_nothing : forall S I (D : Decoder S I) M B Item Conf Init s0 t s,
  composed D M B true Item Conf Init -> Init s0 -> calls D M Conf s0 t s ->
  dec_idle D s = true ->
  forall fuel buf e s' n, (t + len buf <= phys)%N -> eos_fits M buf e ->
    dec_decode D fuel s buf e = (s', Ok n) -> n = 0.
Proof.
  intros S I D M B Item Conf Init s0 t s C I0 H id fuel buf e s' n L EF X.
  destruct (composed_safe C) as (Inv & DS & IN). pose proof (calls_inv DS (IN _ I0) H) as HI.
  pose proof (ds_decode DS HI L EF X) as A. destruct A as (_ & _ & A). auto.
Qed.
Print Assumptions C10_idle_consumes_nothing.

(** The monolithic decoder breaks the rule: idle, it consumes the next bytes, and even replaces
    the item that was to be returned. *)
Definition ex_mono : Decoder (MonoDec (list byte)) (list byte) := mono_decoder (fun b => (inl b, length b)).
Theorem C10_monolithic_refuted : exists s,
  calls ex_mono u64_max (fun _ _ => False) mono_dec_new 1 s /\ dec_idle ex_mono s = true /\
  dec_decode ex_mono 0 s [x02] (eos_new false) = (mkMonoDec (Some [x01]) [x02], Ok 1) /\
  snd (dec_finish ex_mono (fst (dec_decode ex_mono 0 s [x02] (eos_new true)))) = Ok [x02].
Proof.
  exists (mkMonoDec (Some [x01]) []). split; [|split; [|split]]; try reflexivity.
  change 1%N with (0 + len [x01])%N.
  eapply calls_decode with (fuel := 0) (e := eos_new true) (r := Ok 1);
    [constructor|cbv; discriminate|cbv; discriminate|reflexivity|discriminate|discriminate].
Qed.
Print Assumptions C10_monolithic_refuted.

(** ** C11: no item before completion *)
Theorem C11_no_item_before_idle : forall S I (D : Decoder S I) M B q Item Conf Init s0 t s,
  composed D M B q Item Conf Init -> Init s0 -> calls D M Conf s0 t s ->
  dec_idle D s = false -> exists s' k, dec_finish D s = (s', Err k).
Proof.
  intros S I D M B q Item Conf Init s0 t s C I0 H id. destruct (composed_safe C) as (Inv & DS & IN).
  pose proof (calls_inv DS (IN _ I0) H) as HI. destruct (dec_finish D s) as [s' r] eqn:X.
  pose proof (ds_finish DS HI X) as A. destruct r as [i|k| |]; try contradiction; eauto.
  destruct A as (_ & _ & A). congruence.
Qed.
Print Assumptions C11_no_item_before_idle.

(** ** C09: no encoder panics or writes where it does not say *)
Theorem C09_no_panic : forall S I (E : Encoder S I) B l Item Conf Init s0 t s,
  composed_enc E B l Item Conf Init -> Init s0 -> ecalls E Item Conf s0 t s ->
  (forall fuel buf e s' buf' r, (t + len buf <= phys)%N -> eos_fits u64_max buf e ->
     enc_encode E fuel s buf e = (s', buf', r) ->
     r <> Panic /\ length buf' = length buf /\
     forall n, r = Ok n -> n <= length buf /\ skipn n buf' = skipn n buf) /\
  (forall fuel i s' r, Item i -> enc_start E fuel s i = (s', r) -> r <> Panic) /\
  enc_req E s <> Panic /\ (forall n, enc_req E s = Ok (Finite n) -> (n <= B)%N).
Proof.
  intros S I E B l Item Conf Init s0 t s C I0 H. destruct (composed_enc_safe C) as (Inv & ES & IN).
  pose proof (ecalls_inv ES (IN _ I0) H) as HI. split; [|split; [|split]].
  - intros fuel buf e s' buf' r L EF X. destruct (es_encode ES HI L EF X) as [A1 A2].
    destruct r; try contradiction; split; try congruence; split; auto; try discriminate.
    intros n [= <-]. tauto.
  - intros fuel i s' r Hi X. pose proof (es_start ES HI Hi X) as A. destruct r; try contradiction; congruence.
  - pose proof (es_req ES HI) as A. destruct (enc_req E s); try contradiction; congruence.
  - intros n X. pose proof (es_req ES HI) as A. now rewrite X in A.
Qed.
Print Assumptions C09_no_panic.

(** ** The condition on the announced length ([eos_fits]) is needed

    An [Eos] that announces more bytes than a [u64] can count together with the buffer makes [length],
    [max_bytes] and [slice] panic, around any decoder or encoder. *)
Theorem C08_announcement_refuted : forall S I (D : Decoder S I) fuel buf m, (u64_max < m + len buf)%N ->
  (forall st, dec_decode (length_decoder D) fuel st buf (Finite m) = (st, Panic)) /\
  (forall st, (mx_consumed st <= mx_max st)%N -> dec_decode (max_decoder D) fuel st buf (Finite m) = (st, Panic)) /\
  (forall st, sl_consumable st = 0%N -> dec_decode (slice_decoder D) fuel st buf (Finite m) = (st, Panic)).
Proof.
  intros S I D fuel buf m L. split; [|split].
  - intros st. cbn. unfold length_decode. cbn [remaining_bytes bc_to_u64]. unfold u64_add.
    apply N.leb_gt in L. now rewrite L.
  - intros st LE. cbn. unfold max_decode, max_check. cbn [remaining_bytes]. unfold u64_sub, u64_add.
    apply N.leb_le in LE. rewrite LE, N.add_comm. apply N.leb_gt in L. now rewrite L.
  - intros st Z. cbn. unfold slice_decode. rewrite Z, N.min_0_r, N.sub_0_r. unfold eos_back, u64_add.
    apply N.leb_gt in L. now rewrite L.
Qed.
Print Assumptions C08_announcement_refuted.
Theorem C09_announcement_refuted : forall S I (E : Encoder S I) fuel buf m st,
  (u64_max < m + len buf)%N -> sl_consumable st = 0%N ->
  enc_encode (slice_encoder E) fuel st buf (Finite m) = (st, buf, Panic).
Proof.
  intros S I E fuel buf m st L Z. cbn. unfold slice_encode. rewrite Z, N.min_0_r. cbn [N.to_nat].
  rewrite Nat.sub_0_r. unfold eos_back, u64_add. fold (len buf). apply N.leb_gt in L. now rewrite L.
Qed.
Print Assumptions C09_announcement_refuted.
Example C08_announcement_example : (u64_max < u64_max + len [x00])%N.
Proof. reflexivity. Qed.

(** ** C09: what [pre_encode] over [max_bytes] excludes

    The byte counter of [max_bytes] goes on growing over items that exceed the limit, and
    [pre_encode] runs the inner encoder without a buffer of the caller.  So after [2^64 - 1]
    refused one-byte items the next [start_encoding] overflows the counter. *)
Definition ex_pre_max : Encoder (PreEncode (MaxBytes (BytesEnc (list byte)))) (list byte) :=
  pre_encoder (max_encoder (bytes_encoder vec_box)).
Lemma ex_pre_max_step : forall fuel b o c,
  enc_start ex_pre_max fuel (mkPre (mkMax (mkBytesEnc None o) c 0) b) [x01] =
  if (c <=? u64_max - 1)%N then (mkPre (mkMax (mkBytesEnc None 1) (c + 1) 0) b, Err InvalidInput)
  else (mkPre (mkMax (mkBytesEnc None 1) c 0) b, Panic).
Proof.
  intros fuel b o c. cbn -[u64_add isize_max u64_max N.leb N.add]. unfold pre_start, encode_into_bytes.
  cbn -[u64_add isize_max u64_max N.leb N.add]. 
  replace (1 <=? isize_max)%N with true by reflexivity.
  change (repeat x00 (N.to_nat 1)) with [x00]. unfold max_encode.
  change (repeat x00 (Pos.to_nat 1)) with [x00].
  cbn -[u64_add isize_max u64_max N.leb N.add]. unfold u64_add.
  replace (c + 1 <=? u64_max)%N with (c <=? u64_max - 1)%N
    by (assert (1 <= u64_max)%N by discriminate; lia).
  destruct (c <=? u64_max - 1)%N; [|reflexivity].
  replace (c + 1 <=? 0)%N with false by lia. reflexivity.
Qed.
Theorem C09_pre_max_refuted : exists s,
  ecalls ex_pre_max (fun i => i = [x01]) (fun _ _ => False) (pre_new (max_new bytes_enc_new 0)) 0 s /\
  forall fuel, snd (enc_start ex_pre_max fuel s [x01]) = Panic.
Proof.
  assert (R : forall c, (c <= u64_max)%N -> exists o,
      ecalls ex_pre_max (fun i => i = [x01]) (fun _ _ => False) (pre_new (max_new bytes_enc_new 0)) 0
        (mkPre (mkMax (mkBytesEnc None o) c 0) bytes_enc_new)).
  { intros c. induction c as [|c IH] using N.peano_ind; intros L; [eexists; apply ecalls_new|].
    assert (K : (c <= u64_max)%N) by lia. destruct (IH K) as [o R]. exists 1.
    eapply ecalls_start with (fuel := 0) (i := [x01]) (r := Err InvalidInput); try discriminate;
      [exact R|reflexivity|].
    rewrite ex_pre_max_step. replace (c <=? u64_max - 1)%N with true by lia.
    rewrite N.add_1_r. reflexivity. }
  destruct (R u64_max (N.le_refl _)) as [o H]. eexists. split; [exact H|].
  intros fuel. rewrite ex_pre_max_step. reflexivity.
Qed.
Print Assumptions C09_pre_max_refuted.

(** ** The hypotheses are met: a protocol decoder and a history with errors

    [U8, (U16be, then that many bytes)] as [(u8, u16be.and_then(|n| rest.length(n)))]. *)
Definition ex_body (n : N) : Length RemDec := length_new rem_dec_new n.
Definition ex_dec :=
  tuple2_decoder U8Decoder (and_then_decoder U16beDecoder (length_decoder rem_decoder) ex_body).
Definition ex_dec0 : NumDec * AndThen NumDec (Length RemDec) :=
  (num_dec_new 1, and_then_new (num_dec_new 2)).
Lemma read_be_bound : forall w, (read_be w < 256 ^ N.of_nat (length w))%N.
Proof. intros w. rewrite read_be_value. apply be_value_lt. Qed.
Example ex_dec_composed : exists Item Conf Init,
  composed ex_dec u64_max (1 + phys) true Item Conf Init /\ Init ex_dec0.
Proof.
  do 3 eexists. split.
  - unfold ex_dec. eapply dcm_pair.
    + exact (dcm_num read_be 1).
    + eapply dcm_and_then.
      * apply (composed_bound (B' := phys) (dcm_num read_be 2)). cbv; discriminate.
      * eapply dcm_length. apply dcm_rest.
      * intros i (w & L & ->). exists rem_dec_new, (read_be w). split; auto. split; auto.
        pose proof (read_be_bound w) as H. rewrite L in H. unfold phys. cbn in H. lia.
    + cbv; discriminate.
  - cbn. auto.
Qed.
(** Three bytes of which the last two announce a body; a premature [finish_decoding]; an end of
    stream in the middle (an error); more bytes. *)
Example ex_calls : exists s, calls ex_dec u64_max (fun _ _ => False) ex_dec0 6 s /\
  dec_idle ex_dec s = false /\
  snd (dec_decode ex_dec 0 s [xcc; xdd] (eos_new false)) = Ok 2.
Proof.
  set (s1 := fst (dec_decode ex_dec 0 ex_dec0 [x07; x00; x04] (eos_new false))).
  set (s2 := fst (dec_finish ex_dec s1)).
  set (s3 := fst (dec_decode ex_dec 0 s2 [x01] (eos_new true))).
  set (s4 := fst (dec_decode ex_dec 0 s3 [x00; x09] Infinite)).
  exists s4. split; [|split; reflexivity].
  change 6%N with (0 + len [x07; x00; x04] + len [x01] + len [x00; x09])%N.
  eapply calls_decode with (fuel := 0) (e := Infinite) (s := s3) (r := Ok 2).
  2-6: vm_compute; try discriminate; try reflexivity; exact I.
  eapply calls_decode with (fuel := 0) (e := eos_new true) (s := s2) (r := Err UnexpectedEos).
  2-6: vm_compute; try discriminate; reflexivity.
  eapply calls_finish with (s := s1) (r := Err IncompleteDecoding).
  2-4: vm_compute; try discriminate; reflexivity.
  eapply calls_decode with (fuel := 0) (e := eos_new false) (s := ex_dec0) (r := Ok 3);
    [constructor|..]; vm_compute; try discriminate; try reflexivity; exact I.
Qed.

Lemma composed_enc_heavy : forall S I (E : Encoder S I) B Item Conf Init,
  composed_enc E B true Item Conf Init -> composed_enc E B false Item Conf Init.
Proof. intros. eapply ecm_weaken; eauto. reflexivity. Qed.
(** An encoder with a bounded repetition of strings, pre-encoded, and a history with an error. *)
Definition ex_enc := tuple2_encoder (pre_encoder (repeat_encoder (bytes_encoder vec_box)))
                                    (max_encoder U24beEncoder).
Definition ex_enc0 : PreEncode (Repeat (BytesEnc (list byte)) (list byte)) * MaxBytes NumEnc :=
  (pre_new (repeat_new bytes_enc_new), max_new num_enc_new 2).
Example ex_enc_composed : exists Item Conf Init,
  composed_enc ex_enc (isize_max + 3) false Item Conf Init /\ Init ex_enc0 /\
  Item ([[x01; x02]; [x03]], 5%N) /\ Item ([], 16777216%N).
Proof.
  do 3 eexists. split; [|split; [|split]].
  - unfold ex_enc. eapply ecm_pair.
    + eapply composed_enc_heavy. eapply ecm_pre; [eapply ecm_repeat; exact (ecm_bytes vec_box 1000)|cbv; discriminate].
    + eapply ecm_max. exact (ecm_num (max_item 0xFFFFFF (write_be 3)) 3).
    + cbv; discriminate.
  - cbn. split; eexists; [split; [exists bytes_enc_new; split; reflexivity|reflexivity]|]. eauto.
  - cbn. split; [repeat constructor; cbv; discriminate|]. intros w [= <-]. reflexivity.
  - cbn. split; [constructor|]. discriminate.
Qed.
Example ex_ecalls : exists s,
  ecalls ex_enc (fun i => In i [([[x01; x02]; [x03]], 5%N); ([], 16777216%N)]) (fun _ _ => False) ex_enc0 8 s /\
  enc_idle ex_enc s = true.
Proof.
  set (s1 := fst (enc_start ex_enc 9 ex_enc0 ([[x01; x02]; [x03]], 5%N))).
  set (s2 := fst (fst (enc_encode ex_enc 9 s1 [xee] (eos_new false)))).
  set (s3 := fst (enc_start ex_enc 9 s2 ([], 16777216%N))).
  set (s4 := fst (fst (enc_encode ex_enc 9 s3 [xee; xee; xee; xee; xee; xee; xee] (eos_new false)))).
  exists s4. split; [|reflexivity].
  change 8%N with (0 + len [xee] + len [xee; xee; xee; xee; xee; xee; xee])%N.
  eapply ecalls_encode with (s := s3) (fuel := 9) (e := eos_new false) (r := Err InvalidInput).
  2-6: vm_compute; try discriminate; try reflexivity; exact I.
  eapply ecalls_start with (s := s2) (fuel := 9) (i := ([], 16777216%N)) (r := Err EncoderFull).
  2: cbn; auto. 2-4: vm_compute; try discriminate; try reflexivity.
  eapply ecalls_encode with (s := s1) (fuel := 9) (e := eos_new false) (r := Ok 1).
  2-6: vm_compute; try discriminate; try reflexivity; exact I.
  eapply ecalls_start with (s := ex_enc0) (fuel := 9) (i := ([[x01; x02]; [x03]], 5%N)) (r := Ok tt);
    [constructor|cbn; auto|..]; vm_compute; try discriminate; reflexivity.
Qed.

(** ** C55: lengths chosen by the sender

    A 64 bit length prefix never makes a decoder panic, if the decoder under [length] does not
    reserve memory for what is announced ([M] is [u64::MAX]) ... *)
Theorem C55_length_prefix : forall S I (D : Decoder S I) B q Item Conf (Init : S -> Prop) (mk : N -> S) t s,
  composed D u64_max B q Item Conf Init -> (forall n, Init (mk n)) ->
  let P := and_then_decoder U64beDecoder (length_decoder D) (fun n => length_new (mk n) n) in
  calls P u64_max (fun _ _ => False) (and_then_new (num_dec_new 8)) t s ->
  (forall fuel buf e s' r, (t + len buf <= phys)%N -> eos_fits u64_max buf e ->
     dec_decode P fuel s buf e = (s', r) -> r <> Panic) /\
  (forall s' r, dec_finish P s = (s', r) -> r <> Panic) /\ dec_req P s <> Panic.
Proof.
  intros S I D B q Item Conf Init mk t s C HI P H.
  assert (CP : exists Item' Init', composed P u64_max u64_max true Item' (fun _ _ => False) Init' /\
    Init' (and_then_new (num_dec_new 8))).
  { do 2 eexists. split.
    - eapply dcm_weaken with (Conf' := fun _ _ => False); [eapply dcm_and_then|..].
      + apply (composed_bound (B' := u64_max) (dcm_num read_be 8)). cbv; discriminate.
      + eapply dcm_length. exact C.
      + intros i (w & L & ->). exists (mk (read_be w)), (read_be w). split; auto. split; auto.
        pose proof (read_be_bound w) as X. rewrite L in X. cbn in X. unfold u64_max. lia.
      + reflexivity.
      + reflexivity.
      + auto.
      + intros i X. exact X.
      + intros ? ? [].
      + intros x X. exact X.
    - cbn. auto. }
  destruct CP as (Item' & Init' & CP & I0).
  destruct (C08_no_panic CP I0 H) as (A1 & A2 & A3). split; [|split; auto].
  intros fuel buf e s' r L EF X. exact (proj1 (A1 _ _ _ _ _ L EF X)).
Qed.
Print Assumptions C55_length_prefix.
(** ... for example a sequence of numbers; *)
Example C55_example : exists Item Init,
  composed (collect_decoder U32beDecoder) u64_max 4 true Item (fun _ _ => False) Init /\
  Init (collect_new (num_dec_new 4)).
Proof.
  do 2 eexists. split.
  - eapply dcm_weaken with (Conf' := fun _ _ => False);
      [eapply dcm_collect; exact (dcm_num read_be 4)|reflexivity|reflexivity|auto|intros i X; exact X|intros ? ? []|intros x X; exact X].
  - cbn. exists (num_dec_new 4). auto.
Qed.

(** ... but [RemainingBytesDecoder] reserves the announced length at once: eight bytes from
    the network are a panic. *)
Definition ex_blob :=
  and_then_decoder U64beDecoder (length_decoder rem_decoder) (fun n => length_new rem_dec_new n).
Theorem C55_remaining_bytes_refuted :
  exists prefix : list byte, length prefix = 8 /\
    snd (dec_decode ex_blob 0 (and_then_new (num_dec_new 8)) prefix (eos_new false)) = Panic.
Proof. exists [x80; x00; x00; x00; x00; x00; x00; x00]. split; reflexivity. Qed.
Print Assumptions C55_remaining_bytes_refuted.
(** A 32 bit prefix (or anything up to 2^62 - 1) is safe. *)
Theorem C55_remaining_bytes_u32 : forall t s,
  let P := and_then_decoder U32beDecoder (length_decoder rem_decoder) (fun n => length_new rem_dec_new n) in
  calls P u64_max (fun _ _ => False) (and_then_new (num_dec_new 4)) t s ->
  forall fuel buf e s' r, (t + len buf <= phys)%N -> eos_fits u64_max buf e ->
     dec_decode P fuel s buf e = (s', r) -> r <> Panic.
Proof.
  intros t s P H fuel buf e s' r L EF X.
  assert (CP : exists Item' Init', composed P u64_max phys true Item' (fun _ _ => False) Init' /\
    Init' (and_then_new (num_dec_new 4))).
  { do 2 eexists. split.
    - eapply dcm_weaken with (Conf' := fun _ _ => False); [eapply dcm_and_then|..].
      + apply (composed_bound (B' := phys) (dcm_num read_be 4)). cbv; discriminate.
      + eapply dcm_length. exact dcm_rest.
      + intros i (w & LW & ->). exists rem_dec_new, (read_be w). split; auto. split; auto.
        pose proof (read_be_bound w) as Y. rewrite LW in Y. cbn in Y. unfold phys. lia.
      + reflexivity.
      + reflexivity.
      + auto.
      + intros i Y. exact Y.
      + intros ? ? [].
      + intros y Y. exact Y.
    - cbn. auto. }
  destruct CP as (Item' & Init' & CP & I0).
  destruct (C08_no_panic CP I0 H) as (A1 & _). exact (proj1 (A1 _ _ _ _ _ L EF X)).
Qed.
Print Assumptions C55_remaining_bytes_u32.
