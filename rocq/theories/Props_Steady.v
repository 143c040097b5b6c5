(** * C25: every composition of decoders, after any calls whatever their results *)
From Verif Require Import Steady SteadyProofs.
Set Implicit Arguments.

Lemma settled_called : forall S I (D : Decoder S I) b R Fresh s0 s,
  prod D b R Fresh -> R s0 -> called D s0 s -> R s.
Proof.
  intros S I D b R Fresh s0 s P H C. induction C; auto.
  - exact (pr_decode P IHC H0).
  - exact (pr_finish P IHC H0).
Qed.

(** The decoder may have been used in any way, with errors ignored: both calls return. *)
Theorem C25_compositions : forall S I (D : Decoder S I) b Init s0 s,
  steady D b Init -> Init s0 -> called D s0 s ->
  returns D s /\ snd (dec_finish D s) <> OutOfFuel.
Proof.
  intros S I D b Init s0 s St H C. destruct (steady_settled St) as (R & F & P & J).
  pose proof (settled_called P (pr_fresh P (J _ H)) C) as K.
  split; [exact (pr_returns P K)|exact (pr_end P K)].
Qed.

(** An item of a decoder with flag [true] takes a byte, after any calls whatever their results:
    right after an item, [finish_decoding] does not give another one. *)
Theorem C25_flag : forall S I (D : Decoder S I) Init s0 s s' i,
  steady D true Init -> Init s0 -> called D s0 s -> dec_finish D s = (s', Ok i) -> takes_a_byte D s'.
Proof.
  intros S I D Init s0 s s' i St H C E. destruct (steady_settled St) as (R & F & P & J).
  pose proof (settled_called P (pr_fresh P (J _ H)) C) as K.
  exact (pv_byte (prod_productive P) K E).
Qed.

(** [U8Decoder.and_then(|n| Utf8Decoder.length(n)).collect()], with errors in the middle: the first string
    is not UTF-8; the call after the failure returns. *)
Definition strings_dec := and_then_decoder (num_decoder read_be)
  (length_decoder (utf8_decoder rem_decoder))
  (fun n => length_new rem_dec_new n).
Definition strings_new : AndThen NumDec (Length RemDec) := mkAndThen (num_dec_new 1) None.
Example C25_compositions_example :
  let D := collect_decoder strings_dec in
  let s0 := collect_new strings_new in
  let buf := [x01; xff; x02; x41; x42; x00] in
  exists s1, dec_decode D 9 s0 buf (eos_new true) = (s1, Err InvalidInput) /\
    (forall s, called D s1 s -> returns D s) /\
    snd (dec_decode D 9 s1 (skipn 2 buf) (eos_new true)) <> OutOfFuel.
Proof.
  assert (ST : steady (collect_decoder strings_dec) false (fun st => exists s, (num_dec_new 1 = at_inner0 s /\ at_inner1 s = None) /\ st = collect_new s)).
  { apply st_collect. unfold strings_dec. eapply st_weaken.
    - eapply st_and_then.
      + exact (st_num read_be 1).
      + eapply st_length with (positive := false). apply st_utf8. apply st_rest.
      + intros i. exists rem_dec_new, i. repeat split; discriminate.
    - reflexivity.
    - intros s [A B]; auto. }
  assert (I0 : exists s, (num_dec_new 1 = at_inner0 s /\ at_inner1 s = None) /\ @collect_new _ (list N) strings_new = collect_new s)
    by (exists strings_new; auto).
  cbv zeta. eexists. split; [vm_compute; reflexivity|]. 
  match goal with |- (forall s, called _ ?x s -> _) /\ _ => assert (C : called (collect_decoder strings_dec) (collect_new strings_new) x) end.
  { eapply called_decode with (fuel := 9) (buf := [x01; xff; x02; x41; x42; x00]) (e := eos_new true); [apply called_start|].
    vm_compute. reflexivity. }
  split.
  - intros s C'. eapply (@C25_compositions _ _ _ _ _ (collect_new strings_new) s); [exact ST|exact I0|].
    clear - C C'. induction C'; eauto using @called. 
  - vm_compute. discriminate.
Qed.

Print Assumptions C25_compositions.
Print Assumptions C25_flag.
