(** * C36: [exact_requiring_bytes]. *)
From Coq Require Import Lia ZifyBool ZifyNat ZifyN.
From Verif Require Import Sized WritesProofs Examples.
Set Implicit Arguments.

Lemma exact_req_add : forall (a b : res N),
  rbind (rmap Finite a) (fun q => rbind (rmap Finite b) (add_for_encoding q)) = rmap Finite (exact_add a b).
Proof.
  intros [x|k| |] [y|k'| |]; cbn; auto. unfold opt_finite. destruct (u64_add x y); reflexivity.
Qed.
Lemma exact_req_pair : forall S0 I0 S1 I1 (E0 : Encoder S0 I0) (E1 : Encoder S1 I1) f g s,
  (forall s, enc_req E0 s = rmap Finite (f s)) -> (forall s, enc_req E1 s = rmap Finite (g s)) ->
  enc_req (tuple2_encoder E0 E1) s = rmap Finite (exact_pair f g s).
Proof.
  intros S0 I0 S1 I1 E0 E1 f g [s0 s1] H0 H1. unfold exact_pair, exact_snoc, exact_one. cbn [fst snd].
  rewrite <- exact_req_add. cbn. rewrite H0, H1.
  change (rbind (rmap Finite (f s0)) (add_for_encoding (Finite 0))) with
    (rbind (rmap Finite (Ok 0%N)) (fun q => rbind (rmap Finite (f s0)) (add_for_encoding q))).
  rewrite exact_req_add. reflexivity.
Qed.

(** ** C36: [exact_requiring_bytes] is what [requiring_bytes] says, in every state: an encoder that
    implements [SizedEncode] never answers [Unknown] or [Infinite]. *)
Theorem C36_exact_is_requiring : forall A (c : codec A) f s,
  exact c = Some f -> enc_req (encoder c) s = rmap Finite (f s).
Proof.
  assert (X : (forall A (c : codec A) f, exact c = Some f -> forall s, enc_req (encoder c) s = rmap Finite (f s)) /\
    (forall A (p : parts A) f, pexact p = Some f -> forall s,
       enc_req (tuple_of_enc_parts (psem_enc (psem p))) s = rmap Finite (f s))).
  { apply codec_parts_ind; unfold encoder; cbn [sem sem_enc exact pexact ES].
    - intros k f [= <-] s. destruct k; reflexivity.
    - intros k f [= <-] s. destruct k; reflexivity.
    - intros f [= <-] s. reflexivity.
    - intros n f [= <-] s. reflexivity.
    - intros n f [= <-] s. reflexivity.
    - intros f [= <-] s. reflexivity.
    - intros f [= <-] s. reflexivity.
    - intros n f [= <-] s. reflexivity.
    - intros b n f [= <-] s. reflexivity.
    - discriminate.
    - auto.
    - auto.
    - auto.
    - auto.
    - auto.
    - auto.
    - intros A n c IH f [= <-] s. reflexivity.
    - intros A n c IH f E s. destruct (exact c) as [g|]; [|discriminate E]. injection E as <-.
      apply (IH _ eq_refl).
    - auto.
    - auto.
    - intros A c IH f [= <-] s. reflexivity.
    - discriminate.
    - discriminate.
    - intros A k size c IH f E s. destruct (exact c) as [g|]; [|discriminate E]. injection E as <-.
      apply (exact_req_pair (uenc k) (sem_enc (sem c))); [destruct k; reflexivity|exact (IH _ eq_refl)].
    - discriminate.
    - intros A k c IH f E s. destruct (exact c) as [g|]; [|discriminate E]. injection E as <-.
      apply (exact_req_pair (uenc k) (optional_encoder (sem_enc (sem c)))); [destruct k; reflexivity|exact (IH _ eq_refl)].
    - intros A B c IH c' IH' f E s. destruct (exact c) as [g|]; [|discriminate E].
      destruct (exact c') as [g'|]; [|discriminate E]. injection E as <-.
      apply (exact_req_pair (sem_enc (sem c)) (sem_enc (sem c'))); [exact (IH _ eq_refl)|exact (IH' _ eq_refl)].
    - intros A B p IH c IH' f E [s0 s1]. destruct (pexact p) as [g|]; [|discriminate E].
      destruct (exact c) as [g'|]; [|discriminate E]. injection E as <-.
      unfold exact_snoc. cbn [fst snd]. rewrite <- exact_req_add. rewrite <- (IH _ eq_refl), <- (IH' _ eq_refl).
      reflexivity. }
  intros A c f s E. now apply (proj1 X).
Qed.
Print Assumptions C36_exact_is_requiring.

(** After any output of an item, it is the number of bytes still to come. *)
Theorem C36_exact : forall A (c : codec A) f w a,
  exact c = Some f -> able c -> writes c a w -> fits w ->
  exists f0, forall fuel bufs, f0 + room bufs < fuel ->
  exists s1 s,
    enc_start (encoder c) fuel (enc_fresh c) a = (s1, Ok tt) /\
    f s1 = Ok (len w) /\
    drain (encoder c) fuel s1 [] bufs = (s, firstn (room bufs) w, Ok tt) /\
    f s = Ok (len (skipn (room bufs) w)).
Proof.
  intros A c f w a Ex WF W Ft. destruct (proj1 term_able A c WF) as (P & Q & HE & H0 & _).
  destruct (HE w a (conj W Ft)) as (f0 & AC). exists f0. intros fuel bufs F.
  destruct (AC _ H0 fuel ltac:(lia)) as (s1 & X1 & EM). exists s1.
  destruct (drain_ok (fuel := fuel) bufs [] EM F) as (s & X2 & EM2 & ID).
  assert (K : forall s w, emits (encoder c) f0 Q s w -> f s = Ok (len w)).
  { intros s' w' E. destruct (emits_req E) as [K|[K _]];
      rewrite (C36_exact_is_requiring _ s' Ex) in K; destruct (f s'); cbn in K; try discriminate K; congruence. }
  exists s. split; auto.
Qed.
Print Assumptions C36_exact.

(** [slice] passes the answer of its inner encoder on, whatever its budget. *)
Theorem C36_exact_slice : forall S I (E : Encoder S I) f s,
  (forall s, enc_req E s = rmap Finite (f s)) ->
  enc_req (slice_encoder E) s = rmap Finite (slice_enc_exact f s).
Proof. intros S I E f s H. apply H. Qed.
Print Assumptions C36_exact_slice.

(** An encoder with no item reports [Finite(0)] - if it can be used again. *)
Theorem C36_no_item : forall A (c : codec A),
  able c -> enc_again c = true ->
  enc_idle (encoder c) (enc_fresh c) = true /\ enc_req (encoder c) (enc_fresh c) = Ok (Finite 0).
Proof.
  intros A c WF Ea. pose proof (proj1 term_able A c WF) as H. unfold code_able in H. rewrite Ea in H.
  destruct (enc_ok_again H) as (P & H1 & H2 & H3). destruct (H3 _ H2) as (X & Y & _). auto.
Qed.
Print Assumptions C36_no_item.

Definition ex_sized : codec (N * option (list byte) * list byte) :=
  CTuple (PSnoc (PTwo (CU NU16be) (COpt false (CMax 9 CRest))) (CLen2 2 (CPre CRest))).
Example C36_exact_example :
  able ex_sized /\
  (exists f, exact ex_sized = Some f) /\
  writes ex_sized (258%N, Some [x07], [x08; x09]) [x01; x02; x07; x08; x09].
Proof.
  split; [|split].
  - cbn. repeat split; auto; vm_compute; discriminate.
  - eexists. reflexivity.
  - cbn. exists [x01; x02; x07], [x08; x09]. split; [reflexivity|]. split; [|split; reflexivity].
    exists [x01; x02], [x07]. split; [reflexivity|]. split; [split; reflexivity|]. split; [reflexivity|].
    vm_compute; discriminate.
Qed.

(** [length(n)] on an encoder reports [n] bytes although it has no item, and is not idle. *)
Theorem C36_no_item_length_refuted : forall S I (E : Encoder S I) s n, (0 < n)%N ->
  enc_req (length_encoder E) (length_new s n) = Ok (Finite n) /\
  length_enc_exact (length_new s n) = Ok n /\
  enc_idle (length_encoder E) (length_new s n) = false.
Proof.
  intros S I E s n N0. cbn. split; auto. split; auto. destruct (N.eqb_spec n 0); [lia|reflexivity].
Qed.
Print Assumptions C36_no_item_length_refuted.

(** [last(item)]: [exact_requiring_bytes] leaves the pending last item out: two bytes come, but it
    says none; [requiring_bytes] says [Unknown]. *)
Theorem C36_last_refuted :
  let E := last_encoder U16beEncoder in
  let s := last_new num_enc_new 258%N in
  last_enc_exact num_enc_exact s = Ok 0%N /\ enc_req E s = Ok Unknown /\
  exists s', enc_encode E 9 s [x00; x00; x00] (eos_new false) = (s', [x01; x02; x00], Ok 2) /\
    enc_idle E s' = true.
Proof. split; [reflexivity|]. split; [reflexivity|]. eexists. split; reflexivity. Qed.
Print Assumptions C36_last_refuted.
(** While an earlier item is being written it counts that one only. *)
Theorem C36_last_pending_refuted :
  let E := last_encoder U16beEncoder in
  exists s s', enc_start U16beEncoder 9 num_enc_new 7%N = (s, Ok tt) /\
    last_enc_exact num_enc_exact (last_new s 258%N) = Ok 2%N /\
    drain E 9 (last_new s 258%N) [] (repeat [x00] 4) = (s', [x00; x07; x01; x02], Ok tt) /\ enc_idle E s' = true.
Proof. do 2 eexists. repeat split; reflexivity. Qed.
Print Assumptions C36_last_pending_refuted.
