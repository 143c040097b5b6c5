(** * C68: [decode_exact] returns, whatever the reader delivers. *)
From Coq Require Import Lia ZifyBool ZifyNat ZifyN.
From Verif Require Import Universe UniverseProofs Session Examples Props_Collect ExactProofs.
Set Implicit Arguments.

Lemma read_less : forall r k r' b, 0 < k -> rd_read r k = (r', inl b) -> b = [] \/ length (rd_data r') < length (rd_data r).
Proof.
  intros [d p] k r' b K. unfold rd_read. cbn. destruct p as [|[n| |e] p]; intros [= <- <-]; auto; cbn.
  - destruct d; [rewrite firstn_nil; auto|]. right. cbn -[skipn Nat.min]. rewrite skipn_length. cbn [length]. lia.
  - destruct d; [left; now destruct (Nat.min k (S n))|]. right. cbn -[skipn Nat.min]. rewrite skipn_length. cbn [length]. lia.
Qed.
Lemma read_short : forall r k r' b, rd_read r k = (r', inl b) ->
  length b <= length (rd_data r) /\ length (rd_data r') <= length (rd_data r).
Proof.
  intros [d p] k r' b. unfold rd_read. cbn. destruct p as [|[n| |e] p]; intros [= <- <-]; cbn;
    rewrite ?firstn_length, ?skipn_length; lia.
Qed.
Lemma exact_ask_0 : forall q, exact_ask q = 0 -> q = Finite 0.
Proof.
  intros [n| |]; cbn [exact_ask]; unfold io_buf_size; try discriminate.
  destruct (N.ltb_spec n (N.of_nat 1024)); [|discriminate]. intros E. f_equal. lia.
Qed.
Lemma exact_returns : forall p t k T I (D : Decoder T I) (L : T -> Prop), awake_step p t k D L ->
  forall ifuel fuel s r, L s -> live D s -> (forall s, dec_req D s <> OutOfFuel) ->
  length (rd_data r) + 2 <= fuel -> length (rd_data r) + 1 < ifuel ->
  snd (decode_exact D fuel ifuel s r) <> OutOfFuel.
Proof.
  intros p t k T I D L H ifuel. induction fuel as [|fuel IH]; intros s r l lv RQ F IF; [lia|].
  cbn [decode_exact]. cbn zeta. specialize (RQ s) as RQs. destruct (dec_req D s) as [q| | |] eqn:Q; cbn -[eos_new exact_ask Nat.eqb]; try congruence.
  destruct (exact_ask q =? 0) eqn:Z.
  - assert (q = Finite 0) as -> by (apply exact_ask_0; lia). cbn [length Nat.eqb].
    pose proof (lv_ret (live_closed D) _ lv ifuel [] (eos_new false)) as R.
    destruct (dec_decode D ifuel s [] (eos_new false)) as [s' [n| | |]] eqn:E; cbn in R |- *; try congruence.
    2:{ exfalso; apply R; [|reflexivity]. unfold enough. cbn. lia. }
    destruct (n =? 0); [|discriminate]. rewrite (aw_zero H l Q E).
    pose proof (lv_end (live_closed D) (lv_decode (live_closed D) lv E)) as X.
    destruct (dec_finish D s') as [s'' i]. exact X.
  - destruct (rd_read r (exact_ask q)) as [r' [b|e]] eqn:RD; [|discriminate].
    destruct (read_short _ _ RD) as [B1 B2].
    pose proof (lv_ret (live_closed D) _ lv ifuel b (eos_new (length b =? 0))) as R.
    destruct (dec_decode D ifuel s b _) as [s' [n| | |]] eqn:E; cbn in R |- *; try congruence.
    2:{ exfalso; apply R; [|reflexivity]. unfold enough. lia. }
    destruct (n =? length b); [|discriminate].
    pose proof (lv_decode (live_closed D) lv E) as lv'.
    destruct (dec_idle D s') eqn:id.
    { pose proof (lv_end (live_closed D) lv') as X. destruct (dec_finish D s') as [s'' i]. exact X. }
    assert (K : 0 < exact_ask q) by (apply Nat.eqb_neq in Z; lia).
    destruct (read_less _ K RD) as [->|Y].
    { cbn in E. rewrite (aw_eos H l (eq_refl : is_reached (eos_new true) = true) E) in id. discriminate. }
    apply IH; auto; [exact (aw_decode H l E)|lia..].
Qed.

(** ** The model's [requiring_bytes] is a plain function *)
Lemma add_returns : forall a b, add_for_decoding a b <> OutOfFuel.
Proof. intros [x| |] [y| |]; cbn; unfold u64_add; try discriminate; match goal with |- context [if ?c then _ else _] => destruct c end; discriminate. Qed.
Lemma term_req :
  (forall A (c : codec A) s, dec_req (decoder c) s <> OutOfFuel) /\
  (forall A (p : parts A) q s, dp_req (psem_dec (psem p)) q s <> OutOfFuel).
Proof.
  assert (NUM : forall T (item : list byte -> T) s, dec_req (num_decoder item) s <> OutOfFuel).
  { intros T item s. cbn. destruct (usize_sub _ _); discriminate. }
  apply codec_parts_ind; unfold decoder; cbn -[num_decoder add_for_decoding]; intros.
  - destruct k; apply NUM.
  - destruct k; apply NUM.
  - discriminate.
  - destruct (usize_sub _ _); discriminate.
  - destruct (bd_bytes s); [destruct (usize_sub _ _)|]; discriminate.
  - discriminate.
  - discriminate.
  - destruct (usize_sub _ _); discriminate.
  - discriminate.
  - discriminate.
  - apply H.
  - apply H.
  - apply H.
  - apply H.
  - destruct (om_omit s); [discriminate|apply H].
  - discriminate.
  - discriminate.
  - apply H.
  - destruct (pk_item s); [discriminate|apply H].
  - apply H.
  - apply H.
  - destruct (cl_eos s); [discriminate|apply H].
  - destruct (_ =? _); [discriminate|apply H].
  - destruct (at_inner1 s); [discriminate|]. destruct k; apply NUM.
  - destruct (at_inner1 s) as [s1|]; [|destruct k; apply NUM]. destruct (_ =? _); [discriminate|apply H].
  - destruct (at_inner1 s) as [s1|]; [|destruct k; apply NUM]. destruct (om_omit s1); [discriminate|apply H].
  - specialize (H (fst s)). specialize (H0 (snd s)). unfold decoder in *.
    destruct (dec_req (sem_dec (sem c)) (fst s)) as [a| | |]; cbn -[add_for_decoding]; try congruence.
    pose proof (add_returns q a). destruct (add_for_decoding q a) as [a'| | |]; cbn -[add_for_decoding]; try congruence.
    destruct (dec_req (sem_dec (sem c')) (snd s)) as [b| | |]; cbn -[add_for_decoding]; try congruence. apply add_returns.
  - specialize (H q (fst s)). specialize (H0 (snd s)). unfold decoder in *.
    destruct (dp_req (psem_dec (psem p)) q (fst s)) as [a| | |]; cbn -[add_for_decoding]; try congruence.
    destruct (dec_req (sem_dec (sem c)) (snd s)) as [b| | |]; cbn -[add_for_decoding]; try congruence. apply add_returns.
Qed.

(** ** C68: [decode_exact] returns on every stream

    For every decoder of the term language whose repeated items ask for bytes, after any successful calls, for
    every reader: any data, valid or not, cut anywhere, with reads that give less than asked for, nothing, or
    fail.  It makes at most one round per byte of the stream, and two more. *)
Theorem C68_decode_exact_returns : forall A (c : codec A) ops s acc items r fuel ifuel,
  usable c -> collects_bytes c -> asks c ->
  history (decoder c) (dec_fresh c) ops s acc items ->
  length (rd_data r) + 2 <= fuel -> length (rd_data r) + 1 < ifuel ->
  snd (decode_exact (decoder c) fuel ifuel s r) <> OutOfFuel.
Proof.
  intros A c ops s acc items r fuel ifuel U CB AS HI F IF.
  destruct (proj1 term_awake A c AS) as (L & H & l & _).
  apply (exact_returns H); auto.
  - clear - HI H l. induction HI; auto; [exact (aw_decode H IHHI H1)|exact (aw_finish H IHHI H0)].
  - exact (live_history (proj1 term_live A c U CB) HI).
  - apply term_req.
Qed.
Print Assumptions C68_decode_exact_returns.
(** A file of records, in the middle of a record, and a stream of garbage: what has begun is dropped (C24). *)
Example C68_example :
  usable ex_file /\ collects_bytes ex_file /\ asks ex_file /\
  exists s, history (decoder ex_file) (dec_fresh ex_file) [ODecode 9 [x07; x00; x02; xaa; xbb; x08] (eos_new false)]
     s [x07; x00; x02; xaa; xbb; x08] [] /\
     snd (decode_exact (decoder ex_file) 6 6 s (mkReader [xff; xff; x00; x01] [RdSome 0; RdSome 1; RdSome 0])) =
       Ok [(7%N, [xaa; xbb])].
Proof.
  destruct C25_terms_example as (U & CB & _). split; auto. split; auto. split; [cbn; auto|].
  pose proof (hist_start (decoder ex_file) (dec_fresh ex_file)) as H.
  eapply hist_decode with (fuel := 9) (buf := [x07; x00; x02; xaa; xbb; x08]) (e := eos_new false) in H;
    [|reflexivity|vm_compute; reflexivity].
  eexists. split; [exact H|]. vm_compute. reflexivity.
Qed.

(** ** What the conditions exclude *)

(** Items of which the first part is empty: the decoder asks for nothing, [collect()] does not call its inner
    decoder without a byte, and so [decode_exact] never reads one. *)
Definition ex_headless : Decoder (AndThen unit NumDec) N := and_then_decoder null_decoder U8Decoder (fun _ => num_dec_new 1).
Theorem C68_headless_items_refuted : forall fuel ifuel r,
  snd (decode_exact (collect_decoder ex_headless) fuel ifuel (collect_new (and_then_new tt)) r) = OutOfFuel.
Proof.
  induction fuel as [|fuel IH]; intros ifuel r; [reflexivity|].
  cbn [decode_exact]. cbn zeta. change (dec_req (collect_decoder ex_headless) (collect_new (and_then_new tt))) with (Ok (Finite 0)).
  cbv iota. change (exact_ask (Finite 0)) with 0. cbv iota beta. cbn [Nat.eqb].
  replace (dec_decode (collect_decoder ex_headless) ifuel (collect_new (and_then_new tt)) [] (eos_new false))
    with (@collect_new (AndThen unit NumDec) N (and_then_new tt), Ok 0) by (destruct ifuel; reflexivity).
  cbn [length Nat.eqb]. apply IH.
Qed.
Print Assumptions C68_headless_items_refuted.
(** The same decoder decodes the same bytes from a slice. *)
Example C68_headless_items_slice :
  snd (decode_from_bytes (collect_decoder ex_headless) 9 (collect_new (and_then_new tt)) [x07; x08]) = Ok [7%N; 8%N].
Proof. vm_compute. reflexivity. Qed.
(** [collectn(n)] of items without bytes. *)
Theorem C68_empty_items_refuted : forall fuel ifuel r n,
  snd (decode_exact (collectn_decoder null_decoder) fuel ifuel (collectn_new tt (S n)) r) = OutOfFuel.
Proof. induction fuel as [|fuel IH]; intros ifuel r n; [reflexivity|]. cbn. apply IH. Qed.
Print Assumptions C68_empty_items_refuted.
(** An item whose length limit cuts a part with a longer length limit: the call that brings the last byte
    succeeds, and then nothing more is asked for. *)
Definition ex_cut : codec (list (list byte)) := CSeq (CLen 3 (CLen 5 (CBytes 5))).
Theorem C68_cut_items_refuted : forall fuel,
  snd (decode_exact (decoder ex_cut) fuel 9 (dec_fresh ex_cut) (mkReader [x01; x02; x03; x04; x05] [])) = OutOfFuel.
Proof.
  intros fuel. destruct fuel as [|fuel]; [reflexivity|]. cbn [decode_exact]. cbn zeta.
  change (dec_req (decoder ex_cut) (dec_fresh ex_cut)) with (Ok (Finite 3)). cbv iota.
  change (exact_ask (Finite 3)) with 3. cbn [Nat.eqb]. cbn [rd_read rd_plan rd_data skipn firstn length Nat.eqb].
  match goal with |- context [dec_decode ?D 9 ?s ?b ?e] => set (y := dec_decode D 9 s b e) end.
  assert (Y : snd y = Ok 3) by (vm_compute; reflexivity).
  destruct y as [s' r'] eqn:E. cbn in Y. subst r'. cbn [Nat.eqb].
  assert (ID : dec_idle (decoder ex_cut) (fst y) = false) by (vm_compute; reflexivity). rewrite E in ID. cbn [fst] in ID. rewrite ID.
  assert (Q : dec_req (decoder ex_cut) (fst y) = Ok (Finite 0)) by (vm_compute; reflexivity). rewrite E in Q. cbn [fst] in Q.
  assert (N : dec_decode (decoder ex_cut) 9 (fst y) [] (eos_new false) = (fst y, Ok 0)) by (vm_compute; reflexivity).
  rewrite E in N. cbn [fst] in N.
  generalize (mkReader [x04; x05] []). clear E y. induction fuel as [|fuel IH]; intros r; [reflexivity|].
  cbn [decode_exact]. cbn zeta. rewrite Q. change (exact_ask (Finite 0)) with 0. cbn [Nat.eqb]. rewrite N. cbn [length Nat.eqb].
  rewrite ID. apply IH.
Qed.
Print Assumptions C68_cut_items_refuted.
