(** * C87: debug and release builds *)
From Coq Require Import Lia ZifyBool ZifyNat ZifyN.
From Verif Require Import Observe RelProofs SafeEnc NumSpec NumProofs Fixnum Props_Safe.
Set Implicit Arguments.

(** What a call returned was a panic. *)
Definition d_panicked {I} (o : dec_obs I) : Prop :=
  match o with ObDecode Panic | ObFinish Panic | ObReq Panic => True | _ => False end.
Definition e_panicked (o : enc_obs) : Prop :=
  match o with ObEncode _ Panic | ObStart Panic | ObEReq Panic => True | _ => False end.

(** ** Any composition, any calls: as long as the debug build does not panic, the release build returns the same *)
Theorem C87_decode : forall S I (D D' : Decoder S I), built D D' -> forall ops s,
  Forall (fun o => ~ d_panicked o) (dec_trace D s ops) -> dec_trace D' s ops = dec_trace D s ops.
Proof.
  intros S I D D' B. pose proof (built_agree B) as A. induction ops as [|o ops IH]; intros s H; auto.
  cbn [dec_trace] in *. assert (E : dec_do D' s o = dec_do D s o).
  { destruct o; cbn [dec_do] in *.
    - destruct (da_decode A fuel s buf e) as [P| ->]; auto.
      destruct (dec_decode D fuel s buf e) as [s' r]. cbn in P. subst r. inversion H; subst. cbn in *. tauto.
    - destruct (da_finish A s) as [P| ->]; auto.
      destruct (dec_finish D s) as [s' r]. cbn in P. subst r. inversion H; subst. cbn in *. tauto.
    - destruct (da_req A s) as [P| ->]; auto. rewrite P in H. inversion H; subst. cbn in *. tauto.
    - now rewrite (da_idle A). }
  rewrite E. destruct (dec_do D s o) as [s' b]. inversion H; subst. f_equal. auto.
Qed.
Print Assumptions C87_decode.
Theorem C87_encode : forall S I (E E' : Encoder S I), ebuilt E E' -> forall ops s,
  Forall (fun o => ~ e_panicked o) (enc_trace E s ops) -> enc_trace E' s ops = enc_trace E s ops.
Proof.
  intros S I E E' B. pose proof (ebuilt_agree B) as A. induction ops as [|o ops IH]; intros s H; auto.
  cbn [enc_trace] in *. assert (Q : enc_do E' s o = enc_do E s o).
  { destruct o; cbn [enc_do] in *.
    - destruct (ea_encode A fuel s buf e) as [P| ->]; auto.
      destruct (enc_encode E fuel s buf e) as [[s' b'] r]. cbn in P. subst r. inversion H; subst. cbn in *. tauto.
    - destruct (ea_start A fuel s i) as [P| ->]; auto.
      destruct (enc_start E fuel s i) as [s' r]. cbn in P. subst r. inversion H; subst. cbn in *. tauto.
    - destruct (ea_req A s) as [P| ->]; auto. rewrite P in H. inversion H; subst. cbn in *. tauto.
    - now rewrite (ea_idle A). }
  rewrite Q. destruct (enc_do E s o) as [s' b]. inversion H; subst. f_equal. auto.
Qed.
Print Assumptions C87_encode.

(** The exact sizes of tuples. *)
Theorem C87_exact : forall S S' (g g' : S -> res N) (f f' : S' -> res N),
  (forall s, g s = Panic \/ g' s = g s) -> (forall s, f s = Panic \/ f' s = f s) ->
  (forall s, exact_one f s = Panic \/ w_exact_one f' s = exact_one f s) /\
  (forall s, exact_snoc g f s = Panic \/ w_exact_snoc g' f' s = exact_snoc g f s).
Proof.
  intros S S' g g' f f' G F.
  assert (A : forall a b, exact_add a b = Panic \/ w_exact_add a b = exact_add a b).
  { intros [a|k| |] [b|k'| |]; cbn; auto. destruct (u64_add a b) eqn:U; auto. rewrite (u64_add_w _ _ U). auto. }
  unfold exact_one, w_exact_one, exact_snoc, w_exact_snoc. split.
  - intros s. destruct (F s) as [P|P]; [left; now rewrite P|rewrite P; apply A].
  - intros s. destruct (G (fst s)) as [P|P]; [left; now rewrite P|rewrite P].
    destruct (F (snd s)) as [Q|Q]; [|rewrite Q; apply A]. rewrite Q. destruct (g (fst s)); cbn; auto.
Qed.
Print Assumptions C87_exact.

(** ** Under the conditions of C08 and C09 the two builds never differ *)
Theorem C87_decode_safe : forall S I (D D' : Decoder S I) M B q Item Conf Init s0 t s,
  built D D' -> composed D M B q Item Conf Init -> Init s0 -> calls D' M Conf s0 t s ->
  calls D M Conf s0 t s /\
  (forall fuel buf e, (t + len buf <= phys)%N -> eos_fits M buf e ->
     dec_decode D' fuel s buf e = dec_decode D fuel s buf e /\ snd (dec_decode D' fuel s buf e) <> Panic) /\
  dec_finish D' s = dec_finish D s /\ dec_req D' s = dec_req D s /\ dec_idle D' s = dec_idle D s.
Proof.
  intros S I D D' M B q Item Conf Init s0 t s BT C I0 H. pose proof (built_agree BT) as A.
  assert (X : forall t s, calls D M Conf s0 t s ->
    (forall fuel buf e, (t + len buf <= phys)%N -> eos_fits M buf e ->
       dec_decode D' fuel s buf e = dec_decode D fuel s buf e /\ snd (dec_decode D' fuel s buf e) <> Panic) /\
    dec_finish D' s = dec_finish D s /\ dec_req D' s = dec_req D s /\ dec_idle D' s = dec_idle D s).
  { clear t s H. intros t s H. destruct (C08_no_panic C I0 H) as (N1 & N2 & N3). repeat split.
    - destruct (da_decode A fuel s buf e) as [P|P]; auto. exfalso.
      destruct (dec_decode D fuel s buf e) as [s' r] eqn:Q. exact (proj1 (N1 _ _ _ _ _ H0 H1 Q) P).
    - destruct (dec_decode D fuel s buf e) as [s' r] eqn:Q. pose proof (proj1 (N1 _ _ _ _ _ H0 H1 Q)) as NP.
      destruct (da_decode A fuel s buf e) as [P|P]; rewrite Q in P; [contradiction|]. now rewrite P.
    - destruct (da_finish A s) as [P|P]; auto. exfalso. destruct (dec_finish D s) as [s' r] eqn:Q. exact (N2 _ _ eq_refl P).
    - destruct (da_req A s) as [P|P]; auto. contradiction.
    - apply A. }
  assert (Y : calls D M Conf s0 t s).
  { induction H.
    - constructor.
    - eapply calls_decode; eauto. destruct (X _ _ IHcalls) as (Z & _). destruct (Z fuel buf e H0 H1) as (Z1 & _). now rewrite <- Z1.
    - eapply calls_finish; eauto. destruct (X _ _ IHcalls) as (_ & Z & _). now rewrite <- Z.
    - eapply calls_set; eauto. }
  split; auto.
Qed.
Print Assumptions C87_decode_safe.
Theorem C87_encode_safe : forall S I (E E' : Encoder S I) B l Item Conf Init s0 t s,
  ebuilt E E' -> composed_enc E B l Item Conf Init -> Init s0 -> ecalls E' Item Conf s0 t s ->
  ecalls E Item Conf s0 t s /\
  (forall fuel buf e, (t + len buf <= phys)%N -> eos_fits u64_max buf e ->
     enc_encode E' fuel s buf e = enc_encode E fuel s buf e /\ snd (enc_encode E' fuel s buf e) <> Panic) /\
  (forall fuel i, Item i -> enc_start E' fuel s i = enc_start E fuel s i) /\
  enc_req E' s = enc_req E s /\ enc_idle E' s = enc_idle E s.
Proof.
  intros S I E E' B l Item Conf Init s0 t s BT C I0 H. pose proof (ebuilt_agree BT) as A.
  assert (X : forall t s, ecalls E Item Conf s0 t s ->
    (forall fuel buf e, (t + len buf <= phys)%N -> eos_fits u64_max buf e ->
       enc_encode E' fuel s buf e = enc_encode E fuel s buf e /\ snd (enc_encode E' fuel s buf e) <> Panic) /\
    (forall fuel i, Item i -> enc_start E' fuel s i = enc_start E fuel s i) /\
    enc_req E' s = enc_req E s /\ enc_idle E' s = enc_idle E s).
  { clear t s H. intros t s H. destruct (C09_no_panic C I0 H) as (N1 & N2 & N3 & _). repeat split.
    - destruct (ea_encode A fuel s buf e) as [P|P]; auto. exfalso.
      destruct (enc_encode E fuel s buf e) as [[s' b'] r] eqn:Q. exact (proj1 (N1 _ _ _ _ _ _ H0 H1 Q) P).
    - destruct (enc_encode E fuel s buf e) as [[s' b'] r] eqn:Q. pose proof (proj1 (N1 _ _ _ _ _ _ H0 H1 Q)) as NP.
      destruct (ea_encode A fuel s buf e) as [P|P]; rewrite Q in P; [contradiction|]. now rewrite P.
    - intros. destruct (ea_start A fuel s i) as [P|P]; auto. exfalso. destruct (enc_start E fuel s i) as [s' r] eqn:Q.
      exact (N2 _ _ _ _ H0 Q P).
    - destruct (ea_req A s) as [P|P]; auto. contradiction.
    - apply A. }
  assert (Y : ecalls E Item Conf s0 t s).
  { induction H.
    - constructor.
    - destruct (X _ _ IHecalls) as (_ & Z & _). rewrite (Z _ _ H0) in H1. eapply ecalls_start; eauto.
    - destruct (X _ _ IHecalls) as (Z & _). destruct (Z fuel buf e H0 H1) as (Z1 & _). rewrite Z1 in H2. eapply ecalls_encode; eauto.
    - eapply ecalls_set; eauto. }
  split; auto.
Qed.
Print Assumptions C87_encode_safe.

(** The protocol decoder and encoder of Props_Safe.v in a release build. *)
Definition ex_dec' :=
  tuple_of_dec_parts (w_dp_snoc (w_dp_one U8Decoder)
    (and_then_decoder U16beDecoder (w_length_decoder w_rem_decoder) ex_body)).
Example C87_example : built ex_dec ex_dec' /\ exists Item Conf Init, composed ex_dec u64_max (1 + phys) true Item Conf Init /\ Init ex_dec0.
Proof.
  split; [|exact ex_dec_composed]. apply bt_tuple. constructor; [constructor; apply bt_same|].
  apply bt_and_then; [apply bt_same|]. apply bt_length, bt_rest.
Qed.
Definition ex_enc' :=
  tuple_of_enc_parts (w_ep_snoc (w_ep_one (pre_encoder (repeat_encoder (bytes_encoder vec_box))))
    (w_max_encoder U24beEncoder)).
Example C87_example_enc : ebuilt ex_enc ex_enc'.
Proof.
  apply ebt_tuple. constructor; [constructor; apply ebt_same|]. apply ebt_max, ebt_same.
Qed.

(** ** Where the debug build panics the release build goes on with a wrong number

    All of these begin with an announced rest of the stream that does not fit in a [u64] together with the buffer, or
    with lengths that add up to more than that. *)
(** [length] then refuses a stream that is long enough, *)
Theorem C87_length_refuted :
  let st := length_new (collect_new (num_dec_new 1)) 10 in
  snd (dec_decode (length_decoder (collect_decoder U8Decoder)) 9 st [x00] (Finite u64_max)) = Panic /\
  snd (dec_decode (w_length_decoder (collect_decoder U8Decoder)) 9 st [x00] (Finite u64_max)) = Err UnexpectedEos.
Proof. split; reflexivity. Qed.
Print Assumptions C87_length_refuted.
(** [max_bytes(2)] lets five bytes through, and after that any number of bytes, *)
Theorem C87_max_refuted :
  let D := collect_decoder U8Decoder in
  let st := max_new (collect_new (num_dec_new 1)) 2 in
  let buf := [x01; x02; x03; x04; x05] in
  snd (dec_decode (max_decoder D) 9 st buf (Finite (u64_max - 3))) = Panic /\
  exists st', dec_decode (w_max_decoder D) 9 st buf (Finite (u64_max - 3)) = (st', Ok 5) /\
    forall more, (len more <= phys)%N ->
      w_max_check st' more (eos_new false) = Ok tt.
Proof.
  split; [reflexivity|]. eexists. split; [reflexivity|]. intros more L. unfold w_max_check. cbn [remaining_bytes eos_new mx_max mx_consumed].
  replace (wsub _ _) with (u64_max - 2)%N by reflexivity.
  replace (len more <=? u64_max - 2)%N with true; auto. unfold u64_max, phys in *. lia.
Qed.
Print Assumptions C87_max_refuted.
(** [slice] tells its decoder that the stream ends there, *)
Theorem C87_slice_refuted :
  let st := slice_set (slice_new (num_dec_new 2)) 1 in
  snd (dec_decode (slice_decoder U16beDecoder) 9 st [x01; x02; x03] (Finite (u64_max - 1))) = Panic /\
  snd (dec_decode (w_slice_decoder U16beDecoder) 9 st [x01; x02; x03] (Finite (u64_max - 1))) = Err UnexpectedEos.
Proof. split; reflexivity. Qed.
Print Assumptions C87_slice_refuted.
(** and a tuple claims to need nothing. *)
Theorem C87_tuple_refuted :
  let L := length_new (collect_new (num_dec_new 1)) u64_max in
  let l := length_new (collect_new (num_dec_new 1)) 1 in
  let D := length_decoder (collect_decoder U8Decoder) in
  let D' := w_length_decoder (collect_decoder U8Decoder) in
  dec_req (tuple_of_dec_parts (dp_snoc (dp_one D) D)) (L, l) = Panic /\
  dec_req (tuple_of_dec_parts (w_dp_snoc (w_dp_one D') D')) (L, l) = Ok (Finite 0) /\
  dec_idle (tuple_of_dec_parts (w_dp_snoc (w_dp_one D') D')) (L, l) = false.
Proof. split; [|split]; reflexivity. Qed.
Print Assumptions C87_tuple_refuted.
