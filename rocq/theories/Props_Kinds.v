(** * Theorems about the kinds of errors: C76.  The tables are in Kinds.v. *)
From Coq Require Import Lia ZifyBool ZifyNat ZifyN.
From Verif Require Import KindsProofs Examples.
Set Implicit Arguments.

(** ** The tables, for every state of the decoder *)
Theorem C76_decode : forall A (c : codec A) fuel s buf e s' k,
  dec_decode (decoder c) fuel s buf e = (s', Err k) -> decode_kinds c e k.
Proof. intros A c. exact (dk_decode (proj1 term_dkinds A c)). Qed.
Print Assumptions C76_decode.
Arguments C76_decode [A] c [fuel s buf e s' k] _.
Theorem C76_finish : forall A (c : codec A) s s' k,
  dec_idle (decoder c) s = true -> dec_finish (decoder c) s = (s', Err k) -> finish_kinds c k.
Proof. intros A c. exact (dk_idle (proj1 term_dkinds A c)). Qed.
Print Assumptions C76_finish.
Arguments C76_finish [A] c [s s' k] _ _.
Theorem C76_finish_early : forall A (c : codec A) s s' k,
  dec_finish (decoder c) s = (s', Err k) -> early_kinds c k.
Proof. intros A c. exact (dk_any (proj1 term_dkinds A c)). Qed.
Print Assumptions C76_finish_early.
Arguments C76_finish_early [A] c [s s' k] _.

(** ** and for every state of the encoder after any calls *)
Lemma handled_inv : forall S I (E : Encoder S I) Inv Ke Ki Ks s s',
  ekinds E Inv Ke Ki Ks -> Inv s -> handled E s s' -> Inv s'.
Proof.
  intros S I E Inv Ke Ki Ks s s' K V H. induction H; auto.
  - eapply (ek_inv_start K); eauto.
  - eapply (ek_inv_encode K); eauto.
Qed.
Theorem C76_encode : forall A (c : codec A) fuel s buf e s' buf' k,
  handled (encoder c) (enc_fresh c) s ->
  enc_encode (encoder c) fuel s buf e = (s', buf', Err k) -> encode_kinds c e k.
Proof.
  intros A c fuel s buf e s' buf' k H X. destruct (proj1 term_ekinds A c) as (Inv & K & V).
  exact (ek_encode K (handled_inv K V H) X).
Qed.
Print Assumptions C76_encode.
Arguments C76_encode [A] c [fuel s buf e s' buf' k] _ _.
Theorem C76_start_idle : forall A (c : codec A) fuel s i s' k,
  handled (encoder c) (enc_fresh c) s -> enc_idle (encoder c) s = true ->
  enc_start (encoder c) fuel s i = (s', Err k) -> idle_start_kinds c k.
Proof.
  intros A c fuel s i s' k H id X. destruct (proj1 term_ekinds A c) as (Inv & K & V).
  exact (ek_idle K (handled_inv K V H) id X).
Qed.
Print Assumptions C76_start_idle.
Arguments C76_start_idle [A] c [fuel s i s' k] _ _ _.
Theorem C76_start : forall A (c : codec A) fuel s i s' k,
  handled (encoder c) (enc_fresh c) s ->
  enc_start (encoder c) fuel s i = (s', Err k) -> start_kinds c k.
Proof.
  intros A c fuel s i s' k H X. destruct (proj1 term_ekinds A c) as (Inv & K & V).
  exact (ek_start K (handled_inv K V H) X).
Qed.
Print Assumptions C76_start.
Arguments C76_start [A] c [fuel s i s' k] _ _.

(** ** In short *)
Ltac by_kind k := destruct k; cbn in *; intuition (try discriminate; auto).
Lemma finish_causes :
  (forall A (c : codec A) k, finish_kinds c k -> dec_user c k \/ finish_cause c k) /\
  (forall A (p : parts A) k, pfinish_kinds p k -> pdec_user p k \/ finish_cause (CTuple p) k).
Proof.
  apply codec_parts_ind; unfold finish_cause; cbn.
  1-6, 10: intros; contradiction || (subst; cbn; auto).
  1-3: intros; subst; cbn; auto.
  - auto.
  - auto.
  - intros A B f g c IH k [H|H]; [destruct (IH k H)|]; auto.
  - intros A f g c IH k (k0 & _ & ->). eauto.
  - auto.
  - intros A n c IH k [->|H]; [|destruct (IH k H)]; auto. destruct k; auto.
  - intros A n c IH k [->|H]; [|destruct (IH k H)]; auto. destruct k; auto.
  - intros A n c IH k H. destruct (IH k H); auto. destruct k; auto.
  - contradiction.
  - auto.
  - auto.
  - contradiction.
  - contradiction.
  - intros A n f c IH k [->|H]; [|destruct (IH k H)]; auto. destruct k; auto.
  - contradiction.
  - auto.
  - intros A B c IH c' IH' k [H|H]; [destruct (IH k H)|destruct (IH' k H)]; auto; right; destruct k; auto; rewrite H0; auto using orb_true_r.
  - intros A B c IH c' IH' k [H|H]; [destruct (IH k H)|destruct (IH' k H)]; auto; right; destruct k; auto; rewrite H0; auto using orb_true_r.
Qed.
Lemma decode_causes :
  (forall A (c : codec A) e k, decode_kinds c e k -> dec_user c k \/ decode_cause c e k) /\
  (forall A (p : parts A) e k, pdecode_kinds p e k -> pdec_user p k \/ decode_cause (CTuple p) e k).
Proof.
  assert (FD : forall A (c : codec A) e k, finish_kinds c k -> dec_user c k \/ decode_cause c e k).
  { intros A c e k H. destruct (proj1 finish_causes A c k H) as [?|G]; auto. right. destruct k; cbn in *; auto. }
  assert (EO : forall A (c : codec A) e k, eof e k -> decode_cause c e k) by (intros A c e k [-> H]; cbn; auto).
  apply codec_parts_ind; cbn -[eos_new eos_with_remaining decode_cause].
  - auto.
  - auto.
  - contradiction.
  - auto.
  - intros n e k [->|H]; cbn; auto.
  - contradiction.
  - contradiction.
  - auto.
  - intros b n e k [->|[-> H]]; cbn; auto.
  - intros A f g e k [_ H]; auto.
  - auto.
  - auto.
  - intros A B f g c IH e k H. destruct (IH e k H); auto.
  - intros A f g c IH e k (k0 & _ & ->). eauto.
  - auto.
  - intros A n c IH e k [[-> H]|[r H]]; [cbn; auto|]. destruct (IH _ k H); auto. right. destruct k; cbn in *; auto.
  - intros A n c IH e k [[-> H]|[r H]]; [cbn; auto|]. destruct (IH _ k H); auto. right. destruct k; cbn in *; auto.
  - intros A n c IH e k [->|H]; [cbn; auto|]. destruct (IH _ k H); auto. right. destruct k; cbn in *; auto.
  - intros A c IH e k [H|H]; [exact (IH _ _ H)|exact (FD _ c e _ H)].
  - intros A c IH e k [H|H]; [exact (IH _ _ H)|]. destruct (IH _ _ H) as [?|G]; auto. right.
    destruct k; cbn in *; auto. destruct G; auto. discriminate.
  - auto.
  - intros A c IH e k [H|H]; [exact (IH _ _ H)|exact (FD _ c e _ H)].
  - intros A n c IH e k [H|[H|H]]; [auto|exact (IH _ _ H)|exact (FD _ c e _ H)].
  - intros A n f c IH e k [H|[[-> H]|[r H]]]; [auto|cbn; auto|]. destruct (IH _ k H); auto. right. destruct k; cbn in *; auto.
  - intros A n c IH e k [H|[H|H]]; [auto|exact (IH _ _ H)|exact (FD _ c e _ H)].
  - intros A n c IH e k [H|H]; [auto|exact (IH _ _ H)].
  - intros A B c IH c' IH' e k [H|H]; [destruct (IH e k H) as [?|G]|destruct (IH' e k H) as [?|G]]; auto; right;
      destruct k; cbn in *; auto; rewrite ?orb_true_iff in *; tauto.
  - intros A B c IH c' IH' e k [H|H]; [destruct (IH e k H) as [?|G]|destruct (IH' e k H) as [?|G]]; auto; right;
      destruct k; cbn in *; auto; rewrite ?orb_true_iff in *; tauto.
Qed.
Lemma start_causes :
  (forall A (c : codec A), uses c EncPre = false ->
     (forall k, start_kinds c k -> enc_user c k \/ start_cause c false k) /\
     (forall k, idle_start_kinds c k -> enc_user c k \/ start_cause c true k)) /\
  (forall A (p : parts A), puses p EncPre = false ->
     (forall k, pstart_kinds p k -> penc_user p k \/ start_cause (CTuple p) false k) /\
     (forall k, pidle_start_kinds p k -> penc_user p k \/ start_cause (CTuple p) true k)).
Proof.
  apply codec_parts_ind; cbn -[start_cause].
  - intros n _. split; [intros k [->|[N ->]]|intros k [N ->]]; cbn; auto.
  - intros n _. split; [intros k ->|contradiction]; cbn; auto.
  - intros _. split; contradiction.
  - intros n _. split; [intros k ->|contradiction]; cbn; auto.
  - intros n _. split; [intros k ->|contradiction]; cbn; auto.
  - intros _. split; [intros k ->|contradiction]; cbn; auto.
  - intros _. split; [intros k ->|contradiction]; cbn; auto.
  - intros n _. split; [intros k ->|contradiction]; cbn; auto.
  - intros b n _. split; [intros k ->|intros k ->]; cbn; auto.
  - intros A f g _. split; [intros k ->|contradiction]; cbn; auto.
  - auto.
  - auto.
  - intros A B f g c IH U. destruct (IH U) as [H G]. split; intros k [X|X]; auto; [destruct (H k X)|destruct (G k X)]; auto.
  - intros A f g c IH U. split; intros k (k0 & _ & ->); eauto.
  - auto.
  - intros A n c IH U. destruct (IH U) as [H G].
    split; intros k X; [destruct (H k X)|destruct (G k X)]; auto; right; destruct k; cbn in *; auto.
  - intros A n c IH U. destruct (IH U) as [H G].
    split; intros k [->|X]; cbn; auto; (destruct (H k X) as [?|Y]; auto; right; destruct k; cbn in *; auto).
  - intros A n c IH U. destruct (IH U) as [H G].
    split; intros k X; [destruct (H k X)|destruct (G k X)]; auto; right; destruct k; cbn in *; auto.
  - auto.
  - auto.
  - intros A c IH U. discriminate.
  - intros A c IH U. split; [intros k ->|contradiction]; cbn; auto.
  - intros A n c IH U. split; [intros k ->|contradiction]; cbn; auto.
  - intros A n f c IH U. destruct (IH U) as [H G]. split.
    + intros k [->|[[N ->]|X]]; cbn; rewrite ?N; auto. destruct (H k X) as [?|Y]; auto. right. destruct k; cbn in *; auto.
      rewrite Y. apply orb_true_r.
    + intros k [[N ->]|X]; cbn; rewrite ?N; auto. destruct (G k X) as [?|Y]; auto. right. destruct k; cbn in *; auto.
      rewrite Y. apply orb_true_r.
  - intros A n c IH U. split; [intros k [->|[N ->]]|intros k [N ->]]; cbn; rewrite ?N; auto.
  - intros A n c IH U. destruct (IH U) as [H G]. split.
    + intros k [->|[[N ->]|X]]; cbn; rewrite ?N; auto. destruct (H k X) as [?|Y]; auto. right. destruct k; cbn in *; auto.
      rewrite Y. apply orb_true_r.
    + intros k [[N ->]|X]; cbn; rewrite ?N; auto. destruct (G k X) as [?|Y]; auto. right. destruct k; cbn in *; auto.
      rewrite Y. apply orb_true_r.
  - intros A B c IH c' IH' U. apply orb_false_elim in U. destruct U as [U U'].
    destruct (IH U) as [H G]. destruct (IH' U') as [H' G'].
    split; intros k [X|X];
      [destruct (H k X) as [?|Y]|destruct (H' k X) as [?|Y]|destruct (G k X) as [?|Y]|destruct (G' k X) as [?|Y]];
      auto; right; destruct k; cbn in *; auto; rewrite ?orb_true_iff in *; tauto.
  - intros A B c IH c' IH' U. apply orb_false_elim in U. destruct U as [U U'].
    destruct (IH U) as [H G]. destruct (IH' U') as [H' G'].
    split; intros k [X|X];
      [destruct (H k X) as [?|Y]|destruct (H' k X) as [?|Y]|destruct (G k X) as [?|Y]|destruct (G' k X) as [?|Y]];
      auto; right; destruct k; cbn in *; auto; rewrite ?orb_true_iff in *; tauto.
Qed.
Lemma encode_causes :
  (forall A (c : codec A) e k, uses c EncPre = false -> encode_kinds c e k -> enc_user c k \/ encode_cause c e k) /\
  (forall A (p : parts A) e k, puses p EncPre = false -> pencode_kinds p e k -> penc_user p k \/ encode_cause (CTuple p) e k).
Proof.
  assert (EO : forall A (c : codec A) e k, eof e k -> encode_cause c e k) by (intros A c e k [-> H]; cbn; auto).
  assert (SD : forall A (c : codec A) e k, uses c EncPre = false -> idle_start_kinds c k -> enc_user c k \/ encode_cause c e k).
  { intros A c e k U H. destruct (proj2 (proj1 start_causes A c U) k H) as [?|G]; auto. right.
    destruct k; cbn in *; auto. destruct G; [discriminate|auto]. }
  apply codec_parts_ind; cbn -[eos_new encode_cause].
  - auto.
  - auto.
  - contradiction.
  - auto.
  - auto.
  - auto.
  - auto.
  - auto.
  - intros b n e k _ [H| ->]; cbn; auto.
  - intros A f g e k _ [H|H]; auto.
  - auto.
  - auto.
  - intros A B f g c IH e k U H. destruct (IH e k U H); auto.
  - intros A f g c IH e k U (k0 & _ & ->). eauto.
  - auto.
  - intros A n c IH e k U H. destruct (IH e k U H) as [?|G]; auto; right; destruct k; cbn in *; auto.
  - intros A n c IH e k U [H|[->|[H|H]]]; [auto|cbn; auto|..]; (destruct (IH _ k U H) as [?|G]; auto; right; destruct k; cbn in *; auto).
  - intros A n c IH e k U [->|H]; [cbn; auto|]. destruct (IH e k U H) as [?|G]; auto; right; destruct k; cbn in *; auto.
  - auto.
  - auto.
  - discriminate.
  - intros A c IH e k U [H|H]; [exact (IH _ _ U H)|exact (SD _ c e k U H)].
  - intros A n c IH e k U [H|H]; [exact (IH _ _ U H)|exact (SD _ c e k U H)].
  - intros A n f c IH e k U [H|H]; [auto|]. destruct (IH e k U H) as [?|G]; auto; right; destruct k; cbn in *; auto.
    rewrite G. apply orb_true_r.
  - intros A n c IH e k U [H|H]; [auto|]. assert (X : enc_user c k \/ encode_cause c e k).
    { destruct H as [H|H]; [exact (IH _ _ U H)|exact (SD _ c e k U H)]. }
    destruct X as [?|G]; auto; right; destruct k; cbn in *; auto. rewrite G. apply orb_true_r.
  - intros A n c IH e k U [H|H]; [auto|]. destruct (IH e k U H) as [?|G]; auto; right; destruct k; cbn in *; auto.
    rewrite G. apply orb_true_r.
  - intros A B c IH c' IH' e k U. apply orb_false_elim in U. destruct U as [U U'].
    intros [H|H]; [destruct (IH e k U H) as [?|G]|destruct (IH' e k U' H) as [?|G]]; auto; right;
      destruct k; cbn in *; auto; rewrite ?orb_true_iff in *; tauto.
  - intros A B c IH c' IH' e k U. apply orb_false_elim in U. destruct U as [U U'].
    intros [H|H]; [destruct (IH e k U H) as [?|G]|destruct (IH' e k U' H) as [?|G]]; auto; right;
      destruct k; cbn in *; auto; rewrite ?orb_true_iff in *; tauto.
Qed.

(** An error is one that a function of the user returned, or it has one of the documented causes:
    [UnexpectedEos] only if the end of the stream was announced, [InvalidInput] only if something checks the input,
    [DecoderTerminated] only from [BytesDecoder]; never [InconsistentState], [EncoderFull] or [Other]. *)
Theorem C76_decode_cause : forall A (c : codec A) fuel s buf e s' k,
  dec_decode (decoder c) fuel s buf e = (s', Err k) -> dec_user c k \/ decode_cause c e k.
Proof. intros A c fuel s buf e s' k X. apply (proj1 decode_causes), (C76_decode c X). Qed.
Print Assumptions C76_decode_cause.
Theorem C76_finish_cause : forall A (c : codec A) s s' k,
  dec_idle (decoder c) s = true -> dec_finish (decoder c) s = (s', Err k) ->
  dec_user c k \/ finish_cause c k.
Proof. intros A c s s' k id X. apply (proj1 finish_causes), (C76_finish c id X). Qed.
Print Assumptions C76_finish_cause.
Theorem C76_encode_cause : forall A (c : codec A) fuel s buf e s' buf' k,
  uses c EncPre = false -> handled (encoder c) (enc_fresh c) s ->
  enc_encode (encoder c) fuel s buf e = (s', buf', Err k) -> enc_user c k \/ encode_cause c e k.
Proof. intros A c fuel s buf e s' buf' k U H X. apply (proj1 encode_causes); auto. exact (C76_encode _ H X). Qed.
Print Assumptions C76_encode_cause.
Theorem C76_start_cause : forall A (c : codec A) fuel s i s' k,
  uses c EncPre = false -> handled (encoder c) (enc_fresh c) s ->
  enc_start (encoder c) fuel s i = (s', Err k) ->
  enc_user c k \/ start_cause c (enc_idle (encoder c) s) k.
Proof.
  intros A c fuel s i s' k U H X. destruct (proj1 start_causes A c U) as [G1 G2].
  destruct (enc_idle (encoder c) s) eqn:id.
  - apply G2. exact (C76_start_idle _ H id X).
  - apply G1. exact (C76_start _ H X).
Qed.
Print Assumptions C76_start_cause.

(** ** The functions that run a codec *)
Theorem C76_decode_from_bytes : forall A (c : codec A) fuel s buf s' k,
  decode_from_bytes (decoder c) fuel s buf = (s', Err k) ->
  k = InvalidInput \/ decode_kinds c (eos_new true) k \/ early_kinds c k.
Proof.
  intros A c fuel s buf s' k. unfold decode_from_bytes.
  destruct (dec_decode (decoder c) fuel s buf (eos_new true)) as [s1 [n|k1| |]] eqn:X; try discriminate.
  - destruct (n =? length buf).
    + intros Y. do 2 right. exact (C76_finish_early _ Y).
    + intros [= <- <-]; auto.
  - intros [= <- <-]. right. left. exact (C76_decode _ X).
Qed.
Print Assumptions C76_decode_from_bytes.
(** The reader's own errors pass through; [InconsistentState] means that the decoder did not take what it asked for. *)
Theorem C76_decode_exact : forall A (c : codec A) fuel ifuel s r s' r' k,
  decode_exact (decoder c) fuel ifuel s r = (s', r', Err k) ->
  k = InconsistentState \/ (exists e, In (RdErr e) (rd_plan r) /\ k = err_of_io e) \/
  (exists b, decode_kinds c (eos_new b) k) \/ finish_kinds c k.
Proof.
  intros A c fuel. induction fuel as [|fuel IH]; intros ifuel s r s' r' k; cbn [decode_exact]; [discriminate|].
  destruct (dec_req (decoder c) s) as [q|k1| |] eqn:Q; try discriminate.
  2: now destruct (dk_req (proj1 term_dkinds A c) _ Q).
  cbv zeta. assert (RD : exists r1 rd, (if exact_ask q =? 0 then (r, inl []) else rd_read r (exact_ask q)) = (r1, rd) /\
     incl (rd_plan r1) (rd_plan r) /\ forall e, rd = inr e -> In (RdErr e) (rd_plan r)).
  { destruct (exact_ask q =? 0).
    - do 2 eexists. split; [reflexivity|]. split; [apply incl_refl|discriminate].
    - unfold rd_read. destruct (rd_plan r) as [|[n| |e] p]; do 2 eexists; (split; [reflexivity|]); cbn;
        (split; [try apply incl_nil_l; apply incl_tl, incl_refl|intros e' E; try discriminate]).
      injection E as <-. auto. }
  destruct RD as (r1 & rd & -> & IN & ER). destruct rd as [b|e].
  - destruct (dec_decode (decoder c) ifuel s b _) as [s1 [n|k1| |]] eqn:X; try discriminate.
    + destruct (n =? length b); [|intros [= <- <- <-]; auto].
      destruct (dec_idle (decoder c) s1) eqn:id.
      * destruct (dec_finish (decoder c) s1) as [s2 x] eqn:Y. intros [= <- <- ->].
        do 3 right. exact (C76_finish _ id Y).
      * intros Y. apply IH in Y. destruct Y as [?|[(e & I1 & ->)|Y]]; eauto 7.
    + intros [= <- <- <-]. do 2 right. left. apply C76_decode in X. destruct (exact_ask q =? 0); eauto.
  - intros [= <- <- <-]. right. left. exists e. auto.
Qed.
Print Assumptions C76_decode_exact.
Theorem C76_encode_all : forall A (c : codec A) fuel s w s' w' k,
  handled (encoder c) (enc_fresh c) s ->
  encode_all (encoder c) fuel s w = (s', w', Err k) ->
  encode_kinds c (eos_new false) k \/ k = Other \/
  (k = UnexpectedEos /\ In (WrErr IoUnexpectedEof) (wr_plan w)).
Proof.
  intros A c fuel s w s' w' k H X. destruct (proj1 term_ekinds A c) as (Inv & K & V).
  destruct (encode_all_kinds K (handled_inv K V H) X) as [_ G]. exact (G k eq_refl).
Qed.
Print Assumptions C76_encode_all.
Theorem C76_encode_into_bytes : forall A (c : codec A) fuel s i s' k,
  handled (encoder c) (enc_fresh c) s ->
  encode_into_bytes (encoder c) fuel s i = (s', Err k) ->
  k = InvalidInput \/ k = InconsistentState \/ k = Other \/ start_kinds c k \/
  exists b, encode_kinds c (eos_new b) k.
Proof.
  intros A c fuel s i s' k H X. destruct (proj1 term_ekinds A c) as (Inv & K & V).
  destruct (into_bytes_kinds K (handled_inv K V H) X) as [_ G]. exact (G k eq_refl).
Qed.
Print Assumptions C76_encode_into_bytes.

(** ** Errors that the documentation does not list *)

(** [decode] of a [collect] of [length] returns [IncompleteDecoding], and the end of the stream is
    not announced when [length] returns [UnexpectedEos]. *)
Theorem C76_documented_refuted :
  (exists s, dec_decode (decoder (CSeq (CLen 2 (CU NU8)))) 9 (dec_fresh (CSeq (CLen 2 (CU NU8))))
     [x01] (eos_new false) = (s, Err IncompleteDecoding)) /\
  (exists s, dec_decode (decoder (CLen 1 (CU NU16be))) 9 (dec_fresh (CLen 1 (CU NU16be)))
     [x01] (eos_new false) = (s, Err UnexpectedEos)) /\
  (exists s, dec_decode (decoder (CUtf8 1)) 9 (dec_fresh (CUtf8 1)) [xff] (eos_new false) = (s, Ok 1) /\
     snd (dec_finish (decoder (CUtf8 1)) s) = Err InvalidInput) /\
  (let c := CLen2 1 (CBytes 1) in exists s1 s2 b,
     enc_start (encoder c) 9 (enc_fresh c) [x01] = (s1, Ok tt) /\
     enc_encode (encoder c) 9 s1 [x00] (eos_new false) = (s2, b, Ok 1) /\
     enc_idle (encoder c) s2 = true /\
     snd (enc_start (encoder c) 9 s2 [x01]) = Err EncoderFull).
Proof.
  split; [eexists; vm_compute; reflexivity|]. split; [eexists; vm_compute; reflexivity|].
  split; [eexists; split; vm_compute; reflexivity|]. cbv zeta. do 3 eexists.
  split; [vm_compute; reflexivity|]. split; [vm_compute; reflexivity|]. split; vm_compute; reflexivity.
Qed.
Print Assumptions C76_documented_refuted.

(** Calls that fail, and why. *)
Example C76_example :
  (exists s, dec_decode (decoder ex_msg) 100 (dec_fresh ex_msg) (firstn 3 ex_msg_bytes) (eos_new true)
     = (s, Err UnexpectedEos)) /\
  (exists s, dec_decode (decoder (CMax 1 CRest)) 9 (dec_fresh (CMax 1 CRest)) [x01; x02] (eos_new true)
     = (s, Err InvalidInput)) /\
  (exists s, enc_start (encoder (CU NU24be)) 9 (enc_fresh (CU NU24be)) 0x1000000%N = (s, Err InvalidInput)) /\
  (exists s1, enc_start (encoder ex_msg) 9 (enc_fresh ex_msg) ex_msg_item = (s1, Ok tt) /\
     handled (encoder ex_msg) (enc_fresh ex_msg) s1 /\
     snd (enc_start (encoder ex_msg) 9 s1 ex_msg_item) = Err EncoderFull).
Proof.
  split; [eexists; vm_compute; reflexivity|]. split; [eexists; vm_compute; reflexivity|].
  split; [eexists; vm_compute; reflexivity|]. eexists. split; [vm_compute; reflexivity|].
  split; [|vm_compute; reflexivity]. apply (@handled_start _ _ (encoder ex_msg) (enc_fresh ex_msg) 9 (enc_fresh ex_msg) ex_msg_item _ (Ok tt) (handled_not _ _)). vm_compute. reflexivity.
Qed.
