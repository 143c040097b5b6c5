(** * C95: over several calls, an item takes at least as many bytes as [requiring_bytes] said at any time before. *)
From Coq Require Import Lia ZifyBool ZifyNat ZifyN.
From Verif Require Import Eager EagerProofs EagerSum Props_Eager.
Set Implicit Arguments.

(** ** Specification

    [midway D s n s']: any number of successful [decode] calls, none of which is told that the stream ends with its
    buffer, lead from [s] to [s'] and take [n] bytes together.  ([decode]: src/decode.rs:13-43.) *)
Inductive midway {S I} (D : Decoder S I) : S -> nat -> S -> Prop :=
| mw_none : forall s, midway D s 0 s
| mw_call : forall s fuel buf e s1 n k s2,
    is_reached e = false -> dec_decode D fuel s buf e = (s1, Ok n) -> midway D s1 k s2 -> midway D s (n + k) s2.

Lemma midway_sum : forall K S I (D : Decoder S I) m l h L low, provident D m l h L -> grad K D L low ->
  forall s n s', midway D s n s' -> L s -> L s' /\ low s <= n + low s'.
Proof.
  intros K S I D m l h L low P G s n s' H. induction H as [s|s fuel buf e s1 n k s2 R X M IH]; intros Ls.
  - split; [auto|lia].
  - destruct (IH (pv_decode P _ _ _ _ Ls X)) as [A B]. pose proof (proj2 G _ _ _ _ _ _ Ls R X). split; [auto|lia].
Qed.

(** If [requiring_bytes] said [b]: the item is not complete before [b] bytes have been taken; and what
    [requiring_bytes] says is never smaller than what was left to take, however the bytes are cut into calls. *)
Theorem C95_over_calls : forall S I (D : Decoder S I) m l h Init, frugal D m l h Init ->
  forall s0 s n s' b, Init s0 -> served D s0 s -> midway D s n s' -> dec_req D s = Ok (Finite b) ->
    (dec_idle D s' = true -> (b <= N.of_nat n)%N) /\
    (dec_req D s' = Ok Unknown -> (b <= N.of_nat n)%N) /\
    (forall b', dec_req D s' = Ok (Finite b') -> (b <= N.of_nat n + b')%N).
Proof.
  intros S I D m l h Init H s0 s n s' b A R M Q. destruct (frugal_sums H) as (L & P & F & HI).
  destruct (F 0) as (low & G). pose proof (served_L P (proj1 (HI _ A)) R) as Ls.
  destruct (midway_sum P G M Ls) as [Ls' LE]. pose proof (proj1 G _ Ls) as T. pose proof (proj1 G _ Ls') as T'.
  rewrite Q in T. cbn in T. split; [|split].
  - intros id. rewrite (pv_idle P _ Ls' id) in T'. cbn in T'. lia.
  - intros E. rewrite E in T'. cbn in T'. lia.
  - intros b' E. rewrite E in T'. cbn in T'. lia.
Qed.
Print Assumptions C95_over_calls.

(** If it said "infinitely many": no call completes the item before the end of the stream, and it never says
    anything less. *)
Theorem C95_infinite : forall S I (D : Decoder S I) m l h Init, frugal D m l h Init ->
  forall s0 s n s', Init s0 -> served D s0 s -> midway D s n s' -> dec_req D s = Ok Infinite ->
    dec_idle D s' = false /\ (forall q, dec_req D s' = Ok q -> q = Infinite).
Proof.
  intros S I D m l h Init H s0 s n s' A R M Q. destruct (frugal_sums H) as (L & P & F & HI).
  pose proof (served_L P (proj1 (HI _ A)) R) as Ls.
  assert (B : forall K, exists low, L s' /\ told K (dec_req D s') (low s') /\ K <= n + low s').
  { intros K. destruct (F K) as (low & G). exists low. destruct (midway_sum P G M Ls) as [Ls' LE].
    pose proof (proj1 G _ Ls) as T. rewrite Q in T. cbn in T. split; [auto|]. split; [now apply G|lia]. }
  assert (C : forall b, dec_req D s' <> Ok (Finite b)).
  { intros b E. destruct (B (n + 1 + N.to_nat b)) as (low & _ & T & LE). rewrite E in T. cbn in T. lia. }
  split.
  - destruct (dec_idle D s') eqn:id; [|reflexivity]. destruct (B 0) as (low & Ls' & _).
    now apply (pv_idle P _ Ls'), C in id.
  - intros [b| |] E; [now apply C in E|reflexivity|]. destruct (B (n + 1)) as (low & _ & T & LE).
    rewrite E in T. cbn in T. lia.
Qed.
Print Assumptions C95_infinite.

(** A record of a two-byte header and a length-prefixed body, given in three calls. *)
Example C95_example :
  (exists Init, frugal fg_dec true false false Init /\ Init fg_dec0) /\ dec_req fg_dec fg_dec0 = Ok (Finite 3) /\
  exists s1 s2 s3, midway fg_dec fg_dec0 1 s1 /\ dec_req fg_dec s1 = Ok (Finite 2) /\
    midway fg_dec s1 2 s2 /\ dec_req fg_dec s2 = Ok (Finite 4) /\
    midway fg_dec s2 4 s3 /\ dec_idle fg_dec s3 = true.
Proof.
  split; [exact (proj1 C72_example)|]. split; [reflexivity|]. eexists. eexists. eexists.
  split. { apply (@mw_call _ _ fg_dec fg_dec0 9 [x01] (eos_new false) _ 1 0 _ eq_refl eq_refl (mw_none _ _)). }
  split; [reflexivity|].
  split. { eapply (@mw_call _ _ fg_dec _ 9 [x02; x04] (eos_new false) _ 2 0 _ eq_refl); [reflexivity|apply mw_none]. }
  split; [reflexivity|].
  split. { eapply (@mw_call _ _ fg_dec _ 9 [x61; x62; x63; x64; x65] (eos_new false) _ 4 0 _ eq_refl); [reflexivity|apply mw_none]. }
  reflexivity.
Qed.
Example C95_infinite_example : exists s,
  dec_req (tuple2_decoder U8Decoder rem_decoder) (num_dec_new 1, rem_dec_new) = Ok Infinite /\
  midway (tuple2_decoder U8Decoder rem_decoder) (num_dec_new 1, rem_dec_new) 2 s /\
  dec_idle (tuple2_decoder U8Decoder rem_decoder) s = false.
Proof.
  eexists. split; [reflexivity|]. split; [|].
  - eapply (@mw_call _ _ _ _ 9 [x61; x62] (eos_new false) _ 2 0 _ eq_refl); [reflexivity|apply mw_none].
  - reflexivity.
Qed.

(** Not for a [length] window longer than the item ... *)
Theorem C95_length_refuted : exists s,
  dec_req (length_decoder U8Decoder) (length_new (num_dec_new 1) 2) = Ok (Finite 2) /\
  midway (length_decoder U8Decoder) (length_new (num_dec_new 1) 2) 1 s /\
  dec_idle (length_decoder U8Decoder) s = true.
Proof.
  eexists. split; [reflexivity|]. split.
  - eapply (@mw_call _ _ _ _ 9 [x61] (eos_new false) _ 1 0 _ eq_refl); [reflexivity|apply mw_none].
  - reflexivity.
Qed.
Print Assumptions C95_length_refuted.
