(** * C78: what the functions that run a codec leave behind when they fail. *)
From Coq Require Import Lia ZifyBool ZifyNat ZifyN.
From Verif Require Import Aftermath SafeEnc Universe UniverseProofs Examples Props_Codec.
Set Implicit Arguments.
Arguments puts_step {S I E fuel s buf s1 buf1 n chunks s2} _ _ _ _.
Arguments took_step {S I D fuel s buf e n s1 w s2} _ _.

(** ** [decode_from_bytes]

    The bytes were rejected, or bytes are left over, or the item was refused at the end; the decoder is
    in the state in which that call left it. *)
Theorem C78_decode_from_bytes : forall S I (D : Decoder S I) fuel s buf s' k,
  decode_from_bytes D fuel s buf = (s', Err k) ->
  dec_decode D fuel s buf (eos_new true) = (s', Err k) \/
  (exists n, dec_decode D fuel s buf (eos_new true) = (s', Ok n) /\ n <> length buf /\ k = InvalidInput) \/
  (exists s1, dec_decode D fuel s buf (eos_new true) = (s1, Ok (length buf)) /\ dec_finish D s1 = (s', Err k)).
Proof.
  intros S I D fuel s buf s' k. unfold decode_from_bytes.
  destruct (dec_decode D fuel s buf (eos_new true)) as [s1 [n|k1| |]] eqn:X; cbn; try discriminate.
  - destruct (Nat.eqb_spec n (length buf)).
    + subst n. intros F. right. right. eauto.
    + intros [= <- <-]. right. left. eauto.
  - intros [= <- <-]. auto.
Qed.
Print Assumptions C78_decode_from_bytes.

(** ** [decode_exact] *)
Theorem C78_decode_exact : forall S I (D : Decoder S I) fuel ifuel s r s' r' k,
  decode_exact D fuel ifuel s r = (s', r', Err k) ->
  exists w s1 r1, took D s w s1 /\ rd_data r = w ++ rd_data r1 /\ exact_failed D ifuel s1 r1 s' r' k.
Proof.
  intros S I D. induction fuel as [|fuel IH]; intros ifuel s r s' r' k; cbn [decode_exact]; [discriminate|].
  destruct (dec_req D s) as [q|k1| |] eqn:Q; cbn [rcast]; try discriminate.
  2: { intros [= <- <- <-]. exists [], s, r. split; [constructor|]. split; auto. now apply xf_req. }
  destruct (if exact_ask q =? 0 then (r, inl []) else rd_read r (exact_ask q)) as [r1 [b|e]] eqn:RD.
  2: { intros [= <- <- <-]. destruct (exact_ask q =? 0); [discriminate|]. exists [], s, r.
       split; [constructor|]. split; auto. unfold err_of_io. eapply xf_read; eauto. }
  assert (DA : rd_data r = b ++ rd_data r1).
  { destruct (exact_ask q =? 0); [injection RD as <- <-; reflexivity|]. unfold rd_read in RD.
    destruct (rd_plan r) as [|[n| |e] p]; inversion RD; subst; cbn [rd_data app]; auto; symmetry; apply firstn_skipn. }
  set (eos := if exact_ask q =? 0 then eos_new false else eos_new (length b =? 0)).
  destruct (dec_decode D ifuel s b eos) as [s1 [n|k1| |]] eqn:X; cbn [rcast]; try discriminate.
  2: { intros [= <- <- <-]. exists [], s, r. split; [constructor|]. split; auto. eapply xf_decode; eauto. }
  destruct (Nat.eqb_spec n (length b)).
  2: { intros [= <- <- <-]. exists [], s, r. split; [constructor|]. split; auto. eapply xf_left; eauto. }
  subst n. destruct (dec_idle D s1) eqn:ID.
  - destruct (dec_finish D s1) as [s2 it] eqn:F. intros [= <- <- ->]. exists b, s1, r1.
    split; [|split; auto; apply xf_finish; auto].
    pose proof (took_step X (took_nil D s1)) as T. now rewrite firstn_all, app_nil_r in T.
  - intros Y. destruct (IH _ _ _ _ _ _ Y) as (w & s2 & r2 & T & R & F). exists (b ++ w), s2, r2.
    split; [|split; auto].
    + pose proof (took_step X T) as TT. now rewrite firstn_all in TT.
    + now rewrite DA, R, app_assoc.
Qed.
Print Assumptions C78_decode_exact.

(** ** [encode_all] *)
Lemma write_all_ended : forall fuel w b w' r, wr_write_all_loop fuel w b = (w', r) -> r <> OutOfFuel ->
  exists used, Forall bearable used /\
  ((r = Ok tt /\ wr_data w' = wr_data w ++ b /\ wr_plan w = used ++ wr_plan w') \/
   (exists x k sent rest, r = Err k /\ fatal x k /\ b = sent ++ rest /\ rest <> [] /\
     wr_data w' = wr_data w ++ sent /\ wr_plan w = used ++ x :: wr_plan w')).
Proof.
  induction fuel as [|fuel IH]; intros w [|c b] w' r; cbn [wr_write_all_loop].
  1,3: intros [= <- <-] _; exists []; split; [constructor|]; left; rewrite app_nil_r; auto.
  - intros [= <- <-]. congruence.
  - unfold wr_write. destruct (wr_plan w) as [|[n| |e] p] eqn:P.
    + cbn [length]. change (skipn (S (length b)) (c :: b)) with (skipn (length b) b). rewrite skipn_all.
      intros X _. assert (X' : (mkWriter (wr_data w ++ c :: b) [], Ok tt) = (w', r)).
      { destruct fuel; exact X. }
      injection X' as <- <-. exists []. split; [constructor|]. left. auto.
    + cbn [length Nat.min]. set (m := Nat.min (length b) n). intros X NF.
      destruct (IH _ _ _ _ X NF) as (used & F & [(-> & D & Q)|(x & k & sent & rest & -> & FA & B & NE & D & Q)]);
        cbn [wr_data wr_plan] in D, Q; exists (WrSome n :: used); (split; [constructor; [left; eauto|auto]|]).
      * left. split; auto. split; [|cbn; now rewrite Q].
        rewrite D, <- app_assoc. f_equal. exact (firstn_skipn (S m) (c :: b)).
      * right. exists x, k, (firstn (S m) (c :: b) ++ sent), rest. split; auto. split; auto.
        split; [|split; auto; split].
        -- rewrite <- app_assoc, <- B. symmetry. apply firstn_skipn.
        -- now rewrite D, app_assoc.
        -- cbn. now rewrite Q.
    + intros [= <- <-] _. exists []. split; [constructor|]. right. exists WrZero, Other, [], (c :: b).
      cbn. rewrite app_nil_r. repeat split; auto; try discriminate. left. auto.
    + destruct e; cbn;
        try (intros [= <- <-] _; exists []; split; [constructor|]; right; eexists (WrErr _), _, [], (c :: b);
             cbn; rewrite app_nil_r; repeat split; auto; try discriminate; right; eexists; split; [reflexivity|];
             split; [discriminate|reflexivity]).
      intros X NF. destruct (IH _ _ _ _ X NF) as (used & F & [(-> & D & Q)|(x & k & sent & rest & -> & FA & B & NE & D & Q)]);
        cbn [wr_data wr_plan] in D, Q; exists (WrErr IoInterrupted :: used); (split; [constructor; [right; auto|auto]|]).
      * left. cbn. rewrite Q. auto.
      * right. exists x, k, sent, rest. cbn. rewrite Q. auto 9.
Qed.
Lemma all_ended_step : forall S I (E : Encoder S I) fuel s1 c chunks p used p1 s' sent p' r,
  p = used ++ p1 -> Forall bearable used -> all_ended E fuel s1 chunks p1 s' sent p' r ->
  all_ended E fuel s1 (c :: chunks) p s' (c ++ sent) p' r.
Proof.
  intros S I E fuel s1 c chunks p used p1 s' sent p' r -> F H. destruct H as [u p' -> U|u p' s' buf buf' k -> U ID X|u p' before -> U CE ID|u x p' before sent rest k -> U FA CE NE].
  - change (c ++ concat chunks) with (concat (c :: chunks)). eapply ae_done with (used := used ++ u); auto.
    + now rewrite app_assoc. + now apply Forall_app.
  - change (c ++ concat chunks) with (concat (c :: chunks)). eapply ae_encode with (used := used ++ u); eauto.
    + now rewrite app_assoc. + now apply Forall_app.
  - change (c ++ concat chunks) with (concat (c :: chunks)). eapply ae_stuck with (used := used ++ u) (before := c :: before); auto.
    + now rewrite app_assoc. + now apply Forall_app. + now rewrite CE.
  - rewrite (app_assoc c). change (c ++ concat before) with (concat (c :: before)).
    eapply ae_write with (used := used ++ u) (rest := rest); eauto.
    + now rewrite <- app_assoc. + now apply Forall_app. + now rewrite CE.
Qed.
Lemma encode_all_loop_ended : forall S I (E : Encoder S I) fuel ifuel s buf w s' w' r,
  encode_all_loop E fuel ifuel s buf w = (s', w', r) -> r <> OutOfFuel -> r <> Panic ->
  exists chunks s1 sent, puts E ifuel s chunks s1 /\ wr_data w' = wr_data w ++ sent /\
    all_ended E ifuel s1 chunks (wr_plan w) s' sent (wr_plan w') r.
Proof.
  intros S I E. induction fuel as [|fuel IH]; intros ifuel s buf w s' w' r; cbn [encode_all_loop].
  - destruct (enc_idle E s) eqn:ID; intros [= <- <- <-] NF _; [|congruence].
    exists [], s, []. split; [constructor|]. rewrite app_nil_r. split; auto.
    eapply ae_done with (chunks := []) (used := []); auto.
  - destruct (enc_idle E s) eqn:ID.
    { intros [= <- <- <-] _ _. exists [], s, []. split; [constructor|]. rewrite app_nil_r. split; auto.
      eapply ae_done with (chunks := []) (used := []); auto. }
    destruct (enc_encode E ifuel s buf (eos_new false)) as [[s1 buf1] [n|k| |]] eqn:X; cbn [rcast].
    2: { intros [= <- <- <-] _ _. exists [], s, []. split; [constructor|]. rewrite app_nil_r. split; auto.
         eapply ae_encode with (chunks := []) (used := []); eauto. }
    2,3: intros [= <- <- <-]; congruence.
    destruct (Nat.leb_spec n (length buf1)); [|intros [= <- <- <-]; congruence].
    destruct (wr_write_all w (firstn n buf1)) as [w1 x] eqn:WA.
    assert (NFx : x <> OutOfFuel -> exists used, Forall bearable used /\
      ((x = Ok tt /\ wr_data w1 = wr_data w ++ firstn n buf1 /\ wr_plan w = used ++ wr_plan w1) \/
       (exists y k sent rest, x = Err k /\ fatal y k /\ firstn n buf1 = sent ++ rest /\ rest <> [] /\
         wr_data w1 = wr_data w ++ sent /\ wr_plan w = used ++ y :: wr_plan w1))).
    { exact (write_all_ended _ _ _ WA). }
    destruct x as [[]|k| |]; cbn [rcast].
    + destruct NFx as (used & F & [(_ & D & Q)|(y & k & sent & rest & [=] & _)]); [discriminate|].
      destruct (negb (enc_idle E s1) && (n =? 0)) eqn:NP.
      * intros [= <- <- <-] _ _. apply andb_prop in NP. destruct NP as [NI Z]. apply Nat.eqb_eq in Z. subst n.
        exists [[]], s1, []. split; [|split].
        -- pose proof (puts_step ID X H (puts_nil E ifuel s1)) as P. exact P.
        -- exact D.
        -- eapply ae_stuck with (chunks := [[]]) (used := used) (before := []); auto.
           now destruct (enc_idle E s1).
      * intros Y NF NPA. destruct (IH _ _ _ _ _ _ _ Y NF NPA) as (chunks & s2 & sent & P & DD & AE).
        exists (firstn n buf1 :: chunks), s2, (firstn n buf1 ++ sent). split; [eapply puts_step; eauto|].
        split; [now rewrite DD, D, app_assoc|]. eapply all_ended_step; eauto.
    + intros [= <- <- <-] _ _. destruct NFx as (used & F & [(Z & _)|(y & k1 & sent & rest & [= <-] & FA & B & NE & D & Q)]); try discriminate.
      exists [firstn n buf1], s1, sent. split; [|split; auto].
      * exact (puts_step ID X H (puts_nil E ifuel s1)).
      * eapply ae_write with (before := []) (sent := sent) (rest := rest) (used := used); eauto. now rewrite B.
    + intros [= <- <- <-]. congruence.
    + intros [= <- <- <-]. congruence.
Qed.
Theorem C78_encode_all : forall S I (E : Encoder S I) fuel s w s' w' r,
  encode_all E fuel s w = (s', w', r) -> r <> OutOfFuel -> r <> Panic ->
  exists chunks s1 sent, puts E fuel s chunks s1 /\ wr_data w' = wr_data w ++ sent /\
    all_ended E fuel s1 chunks (wr_plan w) s' sent (wr_plan w') r.
Proof. intros S I E fuel s w s' w' r. apply encode_all_loop_ended. Qed.
Print Assumptions C78_encode_all.

(** ** [encode_into_bytes] *)
Theorem C78_encode_into_bytes : forall S I (E : Encoder S I) fuel s i s' k,
  encode_into_bytes E fuel s i = (s', Err k) ->
  enc_start E fuel s i = (s', Err k) \/
  exists s1, enc_start E fuel s i = (s1, Ok tt) /\
  ((enc_req E s1 = Ok Infinite /\ s' = s1 /\ k = InvalidInput) \/
   (enc_req E s1 = Err k /\ s' = s1) \/
   (exists size buf' x, enc_req E s1 = Ok (Finite size) /\
      enc_encode E fuel s1 (repeat x00 (N.to_nat size)) (eos_new true) = (s', buf', x) /\
      (x = Err k \/ exists n, x = Ok n /\ enc_idle E s' = false /\ k = InconsistentState)) \/
   (enc_req E s1 = Ok Unknown /\ exists chunks s2, puts E fuel s1 chunks s2 /\ enc_idle E s2 = false /\
      ((exists buf buf', enc_encode E fuel s2 buf (eos_new false) = (s', buf', Err k)) \/
       (exists before, chunks = before ++ [[]] /\ s' = s2 /\ k = Other)))).
Proof.
  intros S I E fuel s i s' k. unfold encode_into_bytes.
  destruct (enc_start E fuel s i) as [s1 [[]|k1| |]] eqn:X; cbn [rcast]; try discriminate.
  2: { intros [= <- <-]. auto. }
  intros Y. right. exists s1. split; auto. destruct (enc_req E s1) as [[size| |]|k1| |] eqn:Q; cbn [rcast] in Y; try discriminate.
  - destruct (size <=? isize_max)%N; [|discriminate].
    destruct (enc_encode E fuel s1 (repeat x00 (N.to_nat size)) (eos_new true)) as [[s2 buf'] [n|k1| |]] eqn:Z; cbn [rcast] in Y; try discriminate.
    + destruct (enc_idle E s2) eqn:ID; [discriminate|]. injection Y as <- <-. right. right. left.
      exists size, buf', (Ok n). split; auto. split; auto. right. eauto.
    + injection Y as <- <-. right. right. left. exists size, buf', (Err k1). auto.
  - injection Y as <- <-. auto.
  - destruct (encode_all E fuel s1 (mkWriter [] [])) as [[s2 w] x] eqn:Z. right. right. right. split; auto.
    destruct x as [[]|k1| |]; cbn [rcast] in Y; try discriminate.
    { destruct (len (wr_data w) <=? isize_max)%N; discriminate. }
    injection Y as <- <-. destruct (C78_encode_all _ _ _ _ Z) as (chunks & s3 & sent & P & _ & AE); try discriminate.
    exists chunks, s3. split; auto. cbn [wr_plan] in AE. inversion AE as [|u p' sx buf buf' kx PE U ID EN|u p' before PE U CE ID|u y p' before se rest kx PE U FA CE NE]; subst.
    + split; auto. left. eauto.
    + split; auto. right. eauto.
    + destruct u; discriminate.
  - injection Y as <- <-. auto.
Qed.
Print Assumptions C78_encode_into_bytes.

(** ** Afterwards

    Failed or not, the codec is in a state that calls of the trait lead to: what holds for every history
    (no panic, C08 and C09; no item before it is complete, C11; ...) holds from there on. *)
Theorem C78_decode_from_bytes_calls : forall S I (D : Decoder S I) M Conf s0 t s fuel buf s' x,
  calls D M Conf s0 t s -> (t + len buf <= phys)%N -> (len buf <= M)%N ->
  decode_from_bytes D fuel s buf = (s', x) -> x <> Panic -> x <> OutOfFuel ->
  calls D M Conf s0 (t + len buf) s'.
Proof.
  intros S I D M Conf s0 t s fuel buf s' x C L LM. unfold decode_from_bytes.
  destruct (dec_decode D fuel s buf (eos_new true)) as [s1 y] eqn:X. intros Y NP NF.
  assert (C1 : y <> Panic -> y <> OutOfFuel -> calls D M Conf s0 (t + len buf) s1).
  { intros A B. eapply calls_decode; eauto. cbn. lia. }
  destruct y as [n|k| |]; cbn [rcast] in Y.
  - destruct (n =? length buf).
    + eapply calls_finish; eauto. apply C1; discriminate.
    + injection Y as <- <-. apply C1; discriminate.
  - injection Y as <- <-. apply C1; discriminate.
  - injection Y as <- <-. congruence.
  - injection Y as <- <-. congruence.
Qed.
Print Assumptions C78_decode_from_bytes_calls.
Theorem C78_decode_exact_calls : forall S I (D : Decoder S I) M Conf s0 fuel ifuel s r s' r' x t,
  calls D M Conf s0 t s -> (t + len (rd_data r) <= phys)%N ->
  decode_exact D fuel ifuel s r = (s', r', x) -> x <> Panic -> x <> OutOfFuel ->
  exists w, rd_data r = w ++ rd_data r' /\ calls D M Conf s0 (t + len w) s'.
Proof.
  intros S I D M Conf s0. induction fuel as [|fuel IH]; intros ifuel s r s' r' x t C L; cbn [decode_exact].
  { intros [= <- <- <-]. congruence. }
  assert (NIL : exists w, rd_data r = w ++ rd_data r /\ calls D M Conf s0 (t + len w) s).
  { exists []. split; auto. now rewrite N.add_0_r. }
  destruct (dec_req D s) as [q|k1| |] eqn:Q; cbn [rcast]; try (intros [= <- <- <-]; auto; congruence).
  destruct (if exact_ask q =? 0 then (r, inl []) else rd_read r (exact_ask q)) as [r1 [b|e]] eqn:RD.
  2: { intros [= <- <- <-] _ _. destruct (exact_ask q =? 0); [discriminate|]. exists []. rewrite N.add_0_r. split; auto.
       unfold rd_read in RD. destruct (rd_plan r) as [|[n| |e'] p]; inversion RD; subst; reflexivity. }
  assert (DA : rd_data r = b ++ rd_data r1).
  { destruct (exact_ask q =? 0); [injection RD as <- <-; reflexivity|]. unfold rd_read in RD.
    destruct (rd_plan r) as [|[n| |e] p]; inversion RD; subst; cbn [rd_data app]; auto; symmetry; apply firstn_skipn. }
  assert (LL : len (rd_data r) = (len b + len (rd_data r1))%N).
  { unfold len. rewrite DA, app_length. lia. }
  set (eos := if exact_ask q =? 0 then eos_new false else eos_new (length b =? 0)).
  assert (EF : eos_fits M b eos).
  { subst eos. destruct (exact_ask q =? 0); [exact Logic.I|]. destruct b; cbn; [lia|exact Logic.I]. }
  destruct (dec_decode D ifuel s b eos) as [s1 y] eqn:X.
  assert (C1 : y <> Panic -> y <> OutOfFuel -> calls D M Conf s0 (t + len b) s1).
  { intros A B. eapply calls_decode; eauto. lia. }
  destruct y as [n|k1| |]; cbn [rcast].
  - specialize (C1 ltac:(discriminate) ltac:(discriminate)). destruct (n =? length b).
    + destruct (dec_idle D s1) eqn:ID.
      * destruct (dec_finish D s1) as [s2 it] eqn:F. intros [= <- <- <-] NP NF. exists b. split; auto.
        eapply calls_finish; eauto.
      * intros Y NP NF. assert (L1 : (t + len b + len (rd_data r1) <= phys)%N) by lia.
        destruct (IH _ _ _ _ _ _ _ C1 L1 Y NP NF) as (w & R & CC).
        exists (b ++ w). split; [now rewrite DA, R, app_assoc|].
        replace (t + len (b ++ w))%N with (t + len b + len w)%N; auto. unfold len. rewrite app_length. lia.
    + intros [= <- <- <-] _ _. eauto.
  - intros [= <- <- <-] _ _. exists b. split; auto. apply C1; discriminate.
  - intros [= <- <- <-]. congruence.
  - intros [= <- <- <-]. congruence.
Qed.
Print Assumptions C78_decode_exact_calls.
Lemma encode_all_loop_calls : forall S I (E : Encoder S I) Item Conf s0,
  (forall fuel s buf e, length (snd (fst (enc_encode E fuel s buf e))) = length buf) ->
  forall fuel ifuel s buf w s' w' x t,
  ecalls E Item Conf s0 t s -> (t + len buf * N.of_nat fuel <= phys)%N -> (len buf <= u64_max)%N ->
  encode_all_loop E fuel ifuel s buf w = (s', w', x) -> x <> Panic -> x <> OutOfFuel ->
  exists t', (t' <= t + len buf * N.of_nat fuel)%N /\ ecalls E Item Conf s0 t' s'.
Proof.
  intros S I E Item Conf s0 LB. induction fuel as [|fuel IH]; intros ifuel s buf w s' w' x t C L LU; cbn [encode_all_loop].
  - destruct (enc_idle E s); intros [= <- <- <-] NP NF; [|congruence]. exists t. split; auto. lia.
  - destruct (enc_idle E s); [intros [= <- <- <-] _ _; exists t; split; auto; lia|].
    destruct (enc_encode E ifuel s buf (eos_new false)) as [[s1 buf1] y] eqn:X.
    pose proof (LB ifuel s buf (eos_new false)) as LL. rewrite X in LL. cbn [fst snd] in LL.
    assert (C1 : y <> Panic -> y <> OutOfFuel -> ecalls E Item Conf s0 (t + len buf) s1).
    { intros A B. eapply ecalls_encode; eauto; [lia|exact Logic.I]. }
    assert (B1 : (t + len buf <= t + len buf * N.of_nat (Datatypes.S fuel))%N) by nia.
    destruct y as [n|k| |]; cbn [rcast].
    + specialize (C1 ltac:(discriminate) ltac:(discriminate)).
      destruct (n <=? length buf1); [|intros [= <- <- <-]; congruence].
      destruct (wr_write_all w (firstn n buf1)) as [w1 [[]|k| |]]; cbn [rcast].
      * destruct (negb (enc_idle E s1) && (n =? 0)); [intros [= <- <- <-] _ _; eauto|].
        intros Y NP NF. assert (LE : len buf1 = len buf) by (unfold len; now rewrite LL).
        rewrite <- LE in LU. assert (L1 : (t + len buf + len buf1 * N.of_nat fuel <= phys)%N) by (rewrite LE; lia).
        destruct (IH _ _ _ _ _ _ _ _ C1 L1 LU Y NP NF) as (t' & T & CC). exists t'. split; auto. rewrite LE in T. lia.
      * intros [= <- <- <-] _ _. eauto.
      * intros [= <- <- <-]. congruence.
      * intros [= <- <- <-]. congruence.
    + intros [= <- <- <-] _ _. exists (t + len buf)%N. split; auto. apply C1; discriminate.
    + intros [= <- <- <-]. congruence.
    + intros [= <- <- <-]. congruence.
Qed.
Theorem C78_encode_all_calls : forall S I (E : Encoder S I) Item Conf s0 fuel s w s' w' x t,
  (forall fuel s buf e, length (snd (fst (enc_encode E fuel s buf e))) = length buf) ->
  ecalls E Item Conf s0 t s -> (t + 1024 * N.of_nat fuel <= phys)%N ->
  encode_all E fuel s w = (s', w', x) -> x <> Panic -> x <> OutOfFuel ->
  exists t', (t' <= t + 1024 * N.of_nat fuel)%N /\ ecalls E Item Conf s0 t' s'.
Proof.
  intros S I E Item Conf s0 fuel s w s' w' x t LB C L X NP NF.
  apply (encode_all_loop_calls LB fuel fuel (repeat x00 io_buf_size) w C (w' := w') (x := x)); auto.
  cbv; discriminate.
Qed.
Print Assumptions C78_encode_all_calls.

(** The buffer that [encode_into_bytes] allocates has the announced size; it is the [size] of the hypothesis. *)
Theorem C78_encode_into_bytes_calls : forall S I (E : Encoder S I) (Item : I -> Prop) Conf s0 fuel s i s' x t,
  (forall fuel s buf e, length (snd (fst (enc_encode E fuel s buf e))) = length buf) ->
  ecalls E Item Conf s0 t s -> Item i -> (t + 1024 * N.of_nat fuel <= phys)%N ->
  (forall s1 size, enc_start E fuel s i = (s1, Ok tt) -> enc_req E s1 = Ok (Finite size) ->
     (t + size <= phys)%N) ->
  encode_into_bytes E fuel s i = (s', x) -> x <> Panic -> x <> OutOfFuel ->
  exists t', ecalls E Item Conf s0 t' s'.
Proof.
  intros S I E Item Conf s0 fuel s i s' x t LB C Hi L LS. unfold encode_into_bytes.
  destruct (enc_start E fuel s i) as [s1 y] eqn:X.
  assert (C1 : y <> Panic -> y <> OutOfFuel -> ecalls E Item Conf s0 t s1) by (intros; eapply ecalls_start; eauto).
  destruct y as [[]|k| |]; cbn [rcast];
    [|intros [= <- <-] _ _; exists t; apply C1; discriminate|intros [= <- <-]; congruence|intros [= <- <-]; congruence].
  specialize (C1 ltac:(discriminate) ltac:(discriminate)).
  destruct (enc_req E s1) as [[size| |]|k| |] eqn:Q; cbn [rcast]; try (intros [= <- <-]; eauto; congruence).
  - destruct (N.leb_spec size isize_max) as [LI|]; [|intros [= <- <-]; congruence].
    pose proof (LS _ _ eq_refl Q) as LT.
    destruct (enc_encode E fuel s1 (repeat x00 (N.to_nat size)) (eos_new true)) as [[s2 buf] y] eqn:Y.
    assert (LL : len (repeat x00 (N.to_nat size)) = size) by (unfold len; rewrite repeat_length; lia).
    assert (C2 : y <> Panic -> y <> OutOfFuel -> ecalls E Item Conf s0 (t + size) s2).
    { intros A B. rewrite <- LL. eapply ecalls_encode; eauto; [rewrite LL; lia|].
      cbn. rewrite LL, N.add_0_r. etransitivity; [exact LI|]. unfold isize_max, u64_max. lia. }
    destruct y as [n|k| |]; cbn [rcast].
    + destruct (enc_idle E s2); intros [= <- <-] _ _; eexists; apply C2; discriminate.
    + intros [= <- <-] _ _; eexists; apply C2; discriminate.
    + intros [= <- <-]; congruence.
    + intros [= <- <-]; congruence.
  - destruct (encode_all E fuel s1 (mkWriter [] [])) as [[s2 w] y] eqn:Y.
    assert (C2 : y <> Panic -> y <> OutOfFuel -> exists t', ecalls E Item Conf s0 t' s2).
    { intros A B. destruct (C78_encode_all_calls _ _ LB C1 L Y A B) as (t' & _ & CC). eauto. }
    destruct y as [[]|k| |]; cbn [rcast]; intros [= <- <-] NP NF; try congruence; apply C2; discriminate.
Qed.
Print Assumptions C78_encode_into_bytes_calls.

(** ** Bytes after the item: [decode_from_bytes] fails with [InvalidInput], but the item is not lost:
    [finish_decoding] returns it. *)
Theorem C78_item_not_lost : forall A (c : codec A) w a extra fuel,
  wf c -> busy c = true -> delim c = SD -> reads c w a -> extra <> [] ->
  (len (w ++ extra) <= u64_max)%N -> length (w ++ extra) < fuel ->
  exists s s', decode_from_bytes (decoder c) fuel (dec_fresh c) (w ++ extra) = (s, Err InvalidInput) /\
    dec_idle (decoder c) s = true /\ dec_finish (decoder c) s = (s', Ok a).
Proof.
  intros A c w a extra fuel WF B M R NE L F.
  destruct (proj1 term_dec_ok A c WF) as (P & Q & HD & H0 & _ & HB). rewrite M in HD.
  destruct (HD _ _ _ H0 R) as (Rel & SO & RR). pose proof (HB (or_introl B) _ H0) as ID.
  destruct (so_last SO (fuel := fuel) (extra := extra) (rest := []) (e := eos_new true) RR ID) as (s' & X & ID' & R'); auto.
  { congruence. }
  { right. left. split; [reflexivity|]. rewrite N.add_0_r. exact L. }
  destruct (so_idle SO R' ID') as (_ & _ & s2 & FI & _).
  exists s', s2. split; auto. unfold decode_from_bytes. rewrite X.
  destruct (Nat.eqb_spec (length w) (length (w ++ extra))) as [E|]; auto.
  rewrite app_length in E. destruct extra; [congruence|]. cbn in E. lia.
Qed.
Print Assumptions C78_item_not_lost.

(** ** The cases occur: a read that fails inside the item and one that comes too late, a writer that fails
    inside a chunk, an item that is larger than announced, bytes after the item. *)
Example C78_exact_example : exists s r,
  decode_exact (decoder ex_msg) 99 99 (dec_fresh ex_msg) (mkReader ex_msg_bytes [RdSome 1; RdSome 1; RdErr IoOther])
    = (s, r, Err Other) /\ rd_data r = skipn 4 ex_msg_bytes /\
  exists s' r', decode_exact (decoder ex_msg) 99 99 s r = (s', r', Ok ex_msg_item) /\ rd_data r' = [].
Proof. do 2 eexists. split; [vm_compute; reflexivity|]. split; [reflexivity|]. do 2 eexists. split; vm_compute; reflexivity. Qed.
Example C78_exact_cut_example : exists s r,
  decode_exact (decoder ex_msg) 99 99 (dec_fresh ex_msg) (mkReader (firstn 7 ex_msg_bytes) []) = (s, r, Err UnexpectedEos).
Proof. do 2 eexists. vm_compute. reflexivity. Qed.
Example C78_all_example : exists s0 s,
  enc_start (encoder CRest) 9 (enc_fresh CRest) [x41; x42; x43] = (s0, Ok tt) /\
  encode_all (encoder CRest) 9 s0 (mkWriter [] [WrErr IoInterrupted; WrSome 0; WrZero; WrSome 5])
    = (s, mkWriter [x41] [WrSome 5], Err Other) /\ enc_idle (encoder CRest) s = true.
Proof. do 2 eexists. split; [vm_compute; reflexivity|]. split; vm_compute; reflexivity. Qed.
Example C78_into_bytes_example : exists s,
  encode_into_bytes (encoder (CLen2 2 CRest)) 9 (enc_fresh (CLen2 2 CRest)) [x41; x42; x43] = (s, Err UnexpectedEos) /\
  enc_idle (encoder (CLen2 2 CRest)) s = false.
Proof. eexists. split; vm_compute; reflexivity. Qed.
Example C78_from_bytes_example : exists s s',
  decode_from_bytes (decoder ex_msg) 99 (dec_fresh ex_msg) (ex_msg_bytes ++ [x00]) = (s, Err InvalidInput) /\
  dec_finish (decoder ex_msg) s = (s', Ok ex_msg_item).
Proof. do 2 eexists. split; vm_compute; reflexivity. Qed.
