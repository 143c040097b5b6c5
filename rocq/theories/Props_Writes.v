(** * C60, C61: what an encoder that reports success has written. *)
From Coq Require Import Lia ZifyBool ZifyNat ZifyN.
From Verif Require Import WritesProofs Examples.
Set Implicit Arguments.

Lemma wrote_sound : forall S I (E : Encoder S I) enc again strict P R, wsound E enc again strict P R ->
  forall s ow out s', R s ow -> wrote E s out s' ->
  R s' (adv (length out) ow) /\ match ow with Some w => out = firstn (length out) w | None => True end.
Proof.
  intros S I E enc again strict P R H s ow out s' r W. induction W as [|out s1 fuel buf e s2 buf' n W [IH1 IH2] X].
  - cbn. rewrite adv_0. split; auto. destruct ow; auto.
  - destruct (ws_step H IH1 X) as (A1 & A2 & A3 & A4). rewrite adv_adv in A3.
    assert (Ln : length (out ++ firstn n buf') = length out + n).
    { rewrite app_length, firstn_length. lia. }
    rewrite Ln. split; auto. destruct ow as [w|]; auto. cbn in A4. destruct A4 as [A4 A5].
    pose proof (f_equal (@length byte) IH2) as L2. rewrite firstn_length in L2.
    rewrite IH2 at 1. rewrite A5. rewrite skipn_length in A4.
    rewrite <- (firstn_skipn (length out) w) at 3. rewrite firstn_app, firstn_firstn, firstn_length.
    replace (Nat.min (length out + n) (length out)) with (length out) by lia. f_equal. f_equal. lia.
Qed.

Arguments wrote_sound {S I E enc again strict P R} _ {s ow out s'} _ _.

(** ** C60: an encoder that accepts an item and becomes idle has written the encoding of the item.

    For every composition [c], every item [a] made of values of the Rust types, any buffers, any
    end-of-stream arguments (as long as no call fails). *)
Theorem C60_writes_the_item : forall A (c : codec A) a fuel s1 out s2,
  ewf c -> typed c a ->
  enc_start (encoder c) fuel (enc_fresh c) a = (s1, Ok tt) ->
  wrote (encoder c) s1 out s2 -> enc_idle (encoder c) s2 = true ->
  writes c a out.
Proof.
  intros A c a fuel s1 out s2 W T X Wr id. destruct (proj1 term_wok A c W) as (P & R & H & p).
  pose proof (ws_start H p X) as r. destruct (wrote_sound H r Wr) as [r2 V].
  pose proof (ws_idle H r2 id) as Z. destruct (outp c a) as [w|] eqn:O; [|discriminate Z].
  apply (proj1 outp_writes); auto. rewrite V. cbn in Z. injection Z as Z. rewrite O. f_equal.
  rewrite <- (firstn_skipn (length out) w) at 1. rewrite Z. now rewrite app_nil_r.
Qed.
Print Assumptions C60_writes_the_item.

(** The same for items one after the other. *)
Theorem C60_items_in_order : forall A (c : codec A) items out s,
  ewf c -> enc_again c = true -> Forall (typed c) items ->
  sent (encoder c) (enc_fresh c) items out s ->
  exists ws, out = concat ws /\ Forall2 (writes c) items ws.
Proof.
  intros A c items out s W Ea T Sn. destruct (proj1 term_wok A c W) as (P & R & H & p).
  assert (K : P s /\ exists ws, out = concat ws /\ Forall2 (writes c) items ws).
  { revert T. induction Sn as [|is out s1 i fuel s2 out' s3 Sn IH X Wr id]; intros T.
    - split; auto. exists []. auto.
    - apply Forall_app in T. destruct T as [T1 T2]. inversion T2; subst.
      destruct (IH T1) as (p1 & ws & -> & F). pose proof (ws_start H p1 X) as r.
      destruct (wrote_sound H r Wr) as [r2 V]. pose proof (ws_idle H r2 id) as Z.
      destruct (outp c i) as [w|] eqn:O; [|discriminate Z].
      assert (E : out' = w).
      { rewrite V. cbn in Z. injection Z as Z. rewrite <- (firstn_skipn (length out') w) at 2. rewrite Z. now rewrite app_nil_r. }
      split; [exact (proj2 (ws_rest H Ea) _ _ r2 id)|]. exists (ws ++ [w]). split.
      + rewrite concat_app. cbn. rewrite app_nil_r, E. reflexivity.
      + apply Forall2_app; auto. constructor; auto. now apply (proj1 outp_writes). }
  apply K.
Qed.
Print Assumptions C60_items_in_order.

(** [encode_into_bytes] and [encode_all] (to any writer). *)
Theorem C60_encode_into_bytes : forall A (c : codec A) a fuel s b,
  ewf c -> typed c a ->
  encode_into_bytes (encoder c) fuel (enc_fresh c) a = (s, Ok b) -> writes c a b.
Proof.
  intros A c a fuel s b W T X. destruct (proj1 term_wok A c W) as (P & R & H & p).
  apply (proj1 outp_writes); auto. eapply (encode_into_bytes_sound H p X).
Qed.
Print Assumptions C60_encode_into_bytes.
Theorem C60_encode_all : forall A (c : codec A) a fuel fuel' s1 wr s2 wr',
  ewf c -> typed c a ->
  enc_start (encoder c) fuel (enc_fresh c) a = (s1, Ok tt) ->
  encode_all (encoder c) fuel' s1 wr = (s2, wr', Ok tt) ->
  exists out, writes c a out /\ wr_data wr' = wr_data wr ++ out.
Proof.
  intros A c a fuel fuel' s1 wr s2 wr' W T X Y. destruct (proj1 term_wok A c W) as (P & R & H & p).
  destruct (encode_all_sound H (ws_start H p X) Y) as (_ & _ & out & E & D).
  exists out. split; auto. now apply (proj1 outp_writes).
Qed.
Print Assumptions C60_encode_all.

(** An item has at most one encoding, and the items that round-trip have the one that is read
    back. *)
Theorem C60_one_encoding : forall A (c : codec A) a w w', writes c a w -> writes c a w' -> w = w'.
Proof. exact (proj1 writes_fun). Qed.
Print Assumptions C60_one_encoding.
Theorem C60_covers_wire : forall A (c : codec A) w a, wire c w a -> typed c a /\ writes c a w.
Proof. exact (proj1 wire_writes). Qed.
Print Assumptions C60_covers_wire.

(** ** C61: every item that has an encoding is encoded, whatever the decoder does with it. *)
Theorem C61_encodes_every_item : forall A (c : codec A) w a,
  able c -> writes c a w -> fits w ->
  exists f0, forall fuel bufs, f0 + room bufs < fuel ->
  exists s1 s,
    enc_start (encoder c) fuel (enc_fresh c) a = (s1, Ok tt) /\
    drain (encoder c) fuel s1 [] bufs = (s, firstn (room bufs) w, Ok tt) /\
    (enc_idle (encoder c) s = true <->
       length w <= room bufs /\ (bufs <> [] \/ enc_idle (encoder c) s1 = true)).
Proof.
  intros A c w a WF W Ft. destruct (proj1 term_able A c WF) as (P & Q & HE & H0 & _).
  destruct (HE w a (conj W Ft)) as (f0 & AC). exists f0. intros fuel bufs F.
  destruct (AC _ H0 fuel ltac:(lia)) as (s1 & X1 & EM). exists s1.
  destruct (drain_ok (fuel := fuel) bufs [] EM F) as (s & X2 & EM2 & ID).
  exists s. auto.
Qed.
Print Assumptions C61_encodes_every_item.

(** ** A composition with mapping functions that have no inverse, a size that is not the size of
    the body, a bound and a length on the encoder. *)
Definition ex_lossy : codec (N * list byte * list N) :=
  CTuple (PSnoc (PTwo (CMap (fun n => n) (fun n : N => (n / 2)%N) (CU NU24be))
                      (CPrefixed NU8 (fun _ => 7%N) (CMax 4 CRest)))
                (CLen2 4 (CSeq (CU NU16le)))).
Definition ex_lossy_item : N * list byte * list N := (515%N, [x41; x42], [1%N; 770%N]).
Definition ex_lossy_bytes : list byte := [x00; x01; x01; x07; x41; x42; x01; x00; x02; x03].
Lemma num_cons : forall k n, ~ num_bytes k n [].
Proof. intros k n [L _]. destruct k; discriminate L. Qed.
Definition ex_lossy_s1 := fst (enc_start (encoder ex_lossy) 99 (enc_fresh ex_lossy) ex_lossy_item).
Definition ex_lossy_call1 := enc_encode (encoder ex_lossy) 99 ex_lossy_s1 (repeat x00 5) (eos_new false).
Definition ex_lossy_call2 :=
  enc_encode (encoder ex_lossy) 99 (fst (fst ex_lossy_call1)) (repeat x00 7) (eos_new false).
Example C60_example :
  ewf ex_lossy /\ typed ex_lossy ex_lossy_item /\ writes ex_lossy ex_lossy_item ex_lossy_bytes /\
  (exists s1 s2, enc_start (encoder ex_lossy) 99 (enc_fresh ex_lossy) ex_lossy_item = (s1, Ok tt) /\
     wrote (encoder ex_lossy) s1 ex_lossy_bytes s2 /\ enc_idle (encoder ex_lossy) s2 = true) /\
  snd (encode_into_bytes (encoder ex_lossy) 2000 (enc_fresh ex_lossy) ex_lossy_item) = Ok ex_lossy_bytes.
Proof.
  split; [|split; [|split; [|split]]].
  - cbn. repeat split; auto. intros a _. apply num_cons.
  - cbn. repeat split; auto; try (vm_compute; reflexivity). repeat constructor.
  - cbn. exists [x00; x01; x01; x07; x41; x42], [x01; x00; x02; x03]. split; [reflexivity|]. split.
    + exists [x00; x01; x01], [x07; x41; x42]. split; [reflexivity|]. split; [split; reflexivity|].
      exists [x07], [x41; x42]. split; [reflexivity|]. split; [split; reflexivity|]. split; [reflexivity|].
      vm_compute; discriminate.
    + split; [|reflexivity]. exists [[x01; x00]; [x02; x03]]. split; [reflexivity|].
      repeat constructor.
  - exists ex_lossy_s1, (fst (fst ex_lossy_call2)).
    split; [vm_compute; reflexivity|]. split; [|vm_compute; reflexivity].
    change ex_lossy_bytes with (([] ++ firstn 5 [x00; x01; x01; x07; x41]) ++ firstn 5 [x42; x01; x00; x02; x03; x00; x00]).
    eapply (@wrote_call _ _ _ _ _ (fst (fst ex_lossy_call1)) 99 (repeat x00 7) (eos_new false)).
    + eapply (@wrote_call _ _ _ _ _ ex_lossy_s1 99 (repeat x00 5) (eos_new false)); [apply wrote_nil|].
      vm_compute; reflexivity.
    + vm_compute; reflexivity.
  - vm_compute; reflexivity.
Qed.
Example C60_reuse_example :
  let c := CSeq (CMax 3 (CUtf8Rest)) in
  ewf c /\ enc_again c = true /\ typed c [[0x41%N; 0x3B1%N]; []].
Proof. cbn. repeat split; auto. repeat constructor; vm_compute; intuition discriminate. Qed.
Example C61_example : able ex_lossy /\ fits ex_lossy_bytes.
Proof.
  split; [|vm_compute; discriminate]. cbn. repeat split; auto; try (vm_compute; discriminate).
  intros a. apply num_cons.
Qed.

(** ** Without the conditions of [ewf] the claim is false. *)

(** [length(n)] over a [MonolithicEncoder] cuts the item off and reports success. *)
Definition ex_cut : codec nat :=
  CLen2 3 (CMono (fun w => (inl (length w), length w)) (fun n : nat => ([repeat x41 n], None))).
Theorem C60_length_of_monolithic_refuted :
  ~ (forall A (c : codec A) a fuel s b, typed c a ->
       encode_into_bytes (encoder c) fuel (enc_fresh c) a = (s, Ok b) -> writes c a b) /\
  snd (encode_into_bytes (encoder ex_cut) 2000 (enc_fresh ex_cut) 5) = Ok [x41; x41; x41] /\
  ~ exists w, writes ex_cut 5 w.
Proof.
  assert (B : ~ exists w, writes ex_cut 5 w).
  { intros (w & (ch & [= <-] & ->) & L). discriminate L. }
  split; [|split; [reflexivity|exact B]].
  intros H. apply B. exists [x41; x41; x41].
  eapply (H _ ex_cut 5 2000); [exact I|reflexivity].
Qed.
Print Assumptions C60_length_of_monolithic_refuted.

(** [length(n)] over [repeat] drops the items after one without bytes and reports success. *)
Definition ex_drop : codec (list (list byte)) := CLen2 3 (CSeq CRest).
Theorem C60_length_of_empty_items_refuted :
  snd (encode_into_bytes (encoder ex_drop) 2000 (enc_fresh ex_drop) [[x41; x42; x43]; []; [x44]])
    = Ok [x41; x42; x43] /\
  typed ex_drop [[x41; x42; x43]; []; [x44]] /\
  ~ exists w, writes ex_drop [[x41; x42; x43]; []; [x44]] w.
Proof.
  split; [reflexivity|]. split; [repeat constructor|].
  intros (w & (ws & -> & F) & L). inversion F as [|? x1 ? ? H1 F1]; subst. inversion F1 as [|? x2 ? ? H2 F2]; subst.
  inversion F2 as [|? x3 ? ? H3 F3]; subst. inversion F3; subst. cbn in *. subst. discriminate L.
Qed.
Print Assumptions C60_length_of_empty_items_refuted.

(** [length(0)] is idle as soon as it has an item: the item vanishes. *)
Theorem C60_length_zero_refuted :
  let c := CLen2 0 CRest in
  exists s, enc_start (encoder c) 9 (enc_fresh c) [x41] = (s, Ok tt) /\ enc_idle (encoder c) s = true /\
    encode_all (encoder c) 9 s (mkWriter [] []) = (s, mkWriter [] [], Ok tt) /\
    ~ exists w, writes c [x41] w.
Proof.
  intros c. eexists. split; [reflexivity|]. split; [reflexivity|]. split; [reflexivity|].
  intros (w & -> & L). discriminate L.
Qed.
Print Assumptions C60_length_zero_refuted.
