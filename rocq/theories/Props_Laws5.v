(** * C86, continued: [slice] and [length] around encoders, nested tuples of encoders *)
From Verif Require Export Props_Laws4.
From Verif Require Import Lib Fixnum Contract Honest LocalProofs.
From Coq Require Import Lia ZifyBool ZifyNat ZifyN.
Set Implicit Arguments.
Local Arguments Nat.eqb : simpl never.
Local Arguments Nat.sub : simpl never.
Local Arguments N.eqb : simpl never.
Local Arguments N.leb : simpl never.
Local Arguments N.ltb : simpl never.
Local Arguments N.add : simpl never.
Local Arguments N.min : simpl never.

(** [encode] never reports more bytes than the buffer has. *)
Definition ehonest {S I} (E : Encoder S I) : Prop :=
  forall fuel s buf e s' b n, enc_encode E fuel s buf e = (s', b, Ok n) -> n <= length buf.
Lemma wo_ehonest : forall S I (E : Encoder S I), wo E -> ehonest E.
Proof.
  intros S I E H fuel s buf e s' b n EQ. destruct (H fuel s buf buf e eq_refl) as (? & ? & ? & ? & A & _ & _ & _ & F).
  rewrite A in EQ. inversion EQ; subst. destruct (F n eq_refl). auto.
Qed.

Theorem C86_enc_slice_twice : forall S I (E : Encoder S I) s a b, ehonest E ->
  ealike (slice_encoder (slice_encoder E)) (slice_encoder E) (mkSlice (mkSlice s a) b) (mkSlice s (N.min a b)).
Proof.
  intros S I E s a b HE.
  apply (ealike_of (R := fun (x : Slice (Slice S)) y => sl_inner (sl_inner x) = sl_inner y /\
           N.min (sl_consumable (sl_inner x)) (sl_consumable x) = sl_consumable y)); [|repeat split; auto].
  apply em_intro; clear a b; intros [[s1 a] b] [s' c] (E1 & E2); cbn in *; subst.
  - intros. unfold slice_encode. cbn [sl_inner sl_consumable].
    set (l1 := N.to_nat (N.min (len buf) b)). set (l2 := N.to_nat (N.min (len buf) (N.min a b))).
    assert (L1 : l1 <= length buf) by (subst l1; unfold len; lia). assert (L2 : l2 <= l1) by (subst l1 l2; lia).
    assert (L3 : N.to_nat (N.min (N.of_nat l1) a) = l2) by (subst l1 l2; lia). assert (L4 : (N.of_nat l2 <= a /\ N.of_nat l2 <= b)%N) by (subst l2; lia).
    assert (EB : match eos_back e (N.of_nat (length buf - l1)) with Some e' => eos_back e' (N.of_nat (l1 - l2)) | None => None end
                 = eos_back e (N.of_nat (length buf - l2))).
    { destruct e as [x| |]; cbn; auto. unfold u64_add, option_map.
      destruct (x + N.of_nat (length buf - l1) <=? u64_max)%N eqn:U1.
      - cbn. unfold u64_add. replace (x + N.of_nat (length buf - l1) + N.of_nat (l1 - l2))%N with (x + N.of_nat (length buf - l2))%N by lia. reflexivity.
      - replace (x + N.of_nat (length buf - l2) <=? u64_max)%N with false by lia. reflexivity. }
    rewrite <- EB. clear EB.
    destruct (eos_back e (N.of_nat (length buf - l1))) as [e1|]; [|do 4 eexists; split; [reflexivity|]; split; [reflexivity|]; repeat split; auto].
    cbn [enc_encode slice_encoder]. unfold slice_encode. cbn [sl_inner sl_consumable].
    assert (FL : length (firstn l1 buf) = l1) by (rewrite firstn_length; lia).
    assert (LF : len (firstn l1 buf) = N.of_nat l1) by (unfold len; now rewrite FL). rewrite LF, FL, L3.
    assert (RB : forall x, (x ++ skipn l2 (firstn l1 buf)) ++ skipn l1 buf = x ++ skipn l2 buf).
    { intros x. rewrite <- app_assoc. f_equal. rewrite <- (firstn_skipn l1 buf) at 3. rewrite skipn_app, FL.
      replace (l2 - l1) with 0 by lia. reflexivity. }
    destruct (eos_back e1 (N.of_nat (l1 - l2))) as [e2|];
      [|rewrite firstn_skipn; do 4 eexists; split; [reflexivity|]; split; [reflexivity|]; repeat split; auto].
    rewrite firstn_firstn. replace (Nat.min l2 l1) with l2 by lia.
    destruct (enc_encode E fuel s' (firstn l2 buf) e2) as [[s2 b'] [z|k| |]] eqn:DD;
      try (rewrite RB; do 4 eexists; split; [reflexivity|]; split; [reflexivity|]; repeat split; auto).
    apply HE in DD. rewrite firstn_length in DD.
    unfold u64_sub. replace (N.of_nat z <=? a)%N with true by lia. replace (N.of_nat z <=? b)%N with true by lia.
    replace (N.of_nat z <=? N.min a b)%N with true by lia. rewrite RB.
    do 4 eexists; split; [reflexivity|]; split; [reflexivity|]; repeat split; auto. cbn. lia.
  - intros fuel i. destruct (enc_start E fuel s' i) as [s2 q]. do 3 eexists; split; [reflexivity|]; split; [reflexivity|]; repeat split; auto.
  - reflexivity.
  - reflexivity.
Qed.
Print Assumptions C86_enc_slice_twice.

(** [length(n)] twice is [length(n)] up to and including the first [encode] that fails. *)
Definition encode_ok (b : enc_obs) : Prop := match b with ObEncode _ (Ok _) => True | ObEncode _ _ => False | _ => True end.
Theorem C86_enc_length_twice : forall S I (E : Encoder S I) s n ops o,
  Forall encode_ok (enc_trace (length_encoder E) (mkLength s n n) ops) ->
  enc_trace (length_encoder (length_encoder E)) (mkLength (mkLength s n n) n n) (ops ++ [o]) =
  enc_trace (length_encoder E) (mkLength s n n) (ops ++ [o]).
Proof.
  intros S I E s n ops o.
  assert (Stp : forall s r o, 
    snd (enc_do (length_encoder (length_encoder E)) (mkLength (mkLength s n r) n r) o) = snd (enc_do (length_encoder E) (mkLength s n r) o) /\
    (encode_ok (snd (enc_do (length_encoder E) (mkLength s n r) o)) ->
     exists s' r', fst (enc_do (length_encoder (length_encoder E)) (mkLength (mkLength s n r) n r) o) = mkLength (mkLength s' n r') n r' /\
                   fst (enc_do (length_encoder E) (mkLength s n r) o) = mkLength s' n r')).
  { clear. intros s r [fuel buf e|fuel i| |]; cbn [enc_do enc_encode enc_start enc_req enc_idle length_encoder ln_remaining ln_expected ln_inner fst snd];
      [..|eauto|eauto].
    - unfold length_encode. cbn [ln_remaining ln_expected ln_inner].
      destruct ((len buf <? r)%N && is_reached e) eqn:Q; [cbn; tauto|].
      set (l := if (len buf <? r)%N then length buf else N.to_nat r).
      assert (L : length (firstn l buf) = l) by (rewrite firstn_length; subst l; unfold len; destruct (N.of_nat (length buf) <? r)%N eqn:?; lia).
      cbn [enc_encode length_encoder]. unfold length_encode. cbn [ln_remaining ln_expected ln_inner].
      assert (SH : (len (firstn l buf) <? r)%N = (len buf <? r)%N).
      { unfold len. rewrite L. subst l. unfold len. destruct (N.of_nat (length buf) <? r)%N eqn:?; lia. }
      rewrite SH.
      replace (if (len buf <? r)%N then length (firstn l buf) else N.to_nat r) with l
        by (rewrite L; subst l; now destruct (len buf <? r)%N).
      assert (FF : firstn l (firstn l buf) = firstn l buf) by (rewrite firstn_firstn; f_equal; lia).
      assert (SS : skipn l (firstn l buf) = []) by (apply skipn_all2; lia). rewrite FF, SS.
      set (e' := if (len buf <? r)%N then e else eos_new true).
      replace (if (len buf <? r)%N then e' else eos_new true) with e' by (subst e'; now destruct (len buf <? r)%N).
      replace ((len buf <? r)%N && is_reached e') with false
        by (subst e'; destruct (len buf <? r)%N; cbn [andb] in *; auto).
      destruct (enc_encode E fuel s (firstn l buf) e') as [[s' b'] [z|k| |]]; rewrite ?app_nil_r;
        try (cbn; split; [reflexivity|]; tauto).
      destruct (u64_sub r (N.of_nat z)) as [rem|] eqn:US; [|cbn; split; [reflexivity|]; tauto].
      cbn [enc_idle length_encoder ln_remaining].
      destruct (enc_idle E s' && negb (rem =? 0)%N) eqn:ID; [cbn; split; [reflexivity|]; tauto|].
      rewrite US. cbn [enc_idle length_encoder ln_remaining].
      replace ((rem =? 0)%N && negb (rem =? 0)%N) with false by (destruct (rem =? 0)%N; auto). cbn. split; [reflexivity|]. eauto.
    - destruct (r =? n)%N eqn:RN; cbn; [|split; auto; eauto].
      assert (r = n) by lia. subst. rewrite ?N.eqb_refl. destruct (enc_start E fuel s i) as [s' q]. cbn. split; auto. eauto. }
  assert (G : forall s r, Forall encode_ok (enc_trace (length_encoder E) (mkLength s n r) ops) ->
    enc_trace (length_encoder (length_encoder E)) (mkLength (mkLength s n r) n r) (ops ++ [o]) =
    enc_trace (length_encoder E) (mkLength s n r) (ops ++ [o])); [|apply G].
  clear s. induction ops as [|p ops IH]; intros s r F; cbn [app enc_trace] in *.
  - destruct (Stp s r o) as [H _].
    destruct (enc_do (length_encoder (length_encoder E)) _ o) as [? b], (enc_do (length_encoder E) _ o) as [? b']. cbn in H. now subst.
  - destruct (Stp s r p) as [H K].
    destruct (enc_do (length_encoder (length_encoder E)) _ p) as [x b], (enc_do (length_encoder E) _ p) as [x' b']. cbn in H, K. subst b'.
    inversion F; subst. destruct (K H1) as (s' & r' & -> & ->). f_equal. now apply IH.
Qed.
Print Assumptions C86_enc_length_twice.

(** After that the two differ: of [length(2)] twice around a one-byte encoder the outer one still counts two bytes. *)
Theorem C86_enc_length_twice_refuted :
  let ops := [OpStart 5 7%N; OpEncode 5 [x00; x00] (eos_new false); OpEReq] in
  enc_trace (length_encoder U8Encoder) (mkLength num_enc_new 2 2) ops =
    [ObStart (Ok tt); ObEncode [x07; x00] (Err InvalidInput); ObEReq (Ok (Finite 1))] /\
  enc_trace (length_encoder (length_encoder U8Encoder)) (mkLength (mkLength num_enc_new 2 2) 2 2) ops =
    [ObStart (Ok tt); ObEncode [x07; x00] (Err InvalidInput); ObEReq (Ok (Finite 2))].
Proof. split; vm_compute; reflexivity. Qed.

(** ** Tuples *)
Lemma etry_shift : forall S I (E : Encoder S I) fuel s buf b off k e, slice_from off buf = Some b ->
  try_encode E fuel s (off + k) buf e =
  (shifted off (fst (try_encode E fuel s k b e)), firstn off buf ++ snd (try_encode E fuel s k b e)).
Proof.
  intros S I E fuel s buf b off k e H. unfold try_encode. rewrite (@slice_from_shift _ _ _ k H).
  assert (J : firstn off buf ++ b = buf).
  { unfold slice_from in H. destruct (off <=? length buf); [|discriminate]. injection H as <-. apply firstn_skipn. }
  destruct (enc_idle E s); cbn; [now rewrite J|]. destruct (slice_from k b) as [c|] eqn:SK; [|cbn; now rewrite J].
  assert (FK : firstn (off + k) buf = firstn off buf ++ firstn k b).
  { unfold slice_from in H. destruct (off <=? length buf) eqn:L; [|discriminate]. injection H as <-.
    rewrite <- (firstn_skipn off buf) at 1. rewrite firstn_app, firstn_length. replace (Nat.min off (length buf)) with off by lia.
    rewrite firstn_firstn. replace (Nat.min (off + k) off) with off by lia. replace (off + k - off) with k by lia. reflexivity. }
  destruct (enc_encode E fuel s c e) as [[s' b'] [n|x| |]]; cbn; rewrite FK, app_assoc; auto.
  destruct (enc_idle E s'); cbn; now rewrite Nat.add_assoc.
Qed.
Lemma etry_go_idle : forall S I (E : Encoder S I) fuel s off buf e s' off' b,
  try_encode E fuel s off buf e = (TGo s' off', b) -> enc_idle E s' = true.
Proof.
  intros S I E fuel s off buf e s' off' b H. unfold try_encode in H. destruct (enc_idle E s) eqn:X; [inversion H; subst; auto|].
  destruct (slice_from off buf); [|discriminate]. destruct (enc_encode E fuel s l e) as [[s1 b1] [n|x| |]]; try discriminate.
  destruct (enc_idle E s1) eqn:Y; inversion H; subst; auto.
Qed.
Lemma etry_ret_idle : forall S I (E : Encoder S I) fuel s off buf e s' n b,
  try_encode E fuel s off buf e = (TRet s' (Ok n), b) -> enc_idle E s' = false.
Proof.
  intros S I E fuel s off buf e s' n b H. unfold try_encode in H. destruct (enc_idle E s) eqn:X; [discriminate|].
  destruct (slice_from off buf); [|discriminate]. destruct (enc_encode E fuel s l e) as [[s1 b1] [m|x| |]]; try discriminate.
  destruct (enc_idle E s1) eqn:Y; inversion H; subst; auto.
Qed.
Definition same_eobs (x y : enc_obs) : Prop := x = y \/ x = ObEReq Panic \/ y = ObEReq Panic.
Definition ealmost {S S' I} (E : Encoder S I) (E' : Encoder S' I) (s : S) (s' : S') : Prop :=
  forall ops, Forall2 same_eobs (enc_trace E s ops) (enc_trace E' s' ops).
Lemma ealmost_of : forall S S' I (R : S -> S' -> Prop) (E : Encoder S I) (E' : Encoder S' I) s s',
  (forall s s', R s s' -> forall fuel buf e,
     exists a a' b r, enc_encode E fuel s buf e = (a, b, r) /\ enc_encode E' fuel s' buf e = (a', b, r) /\ R a a') ->
  (forall s s', R s s' -> forall fuel i,
     exists a a' r, enc_start E fuel s i = (a, r) /\ enc_start E' fuel s' i = (a', r) /\ R a a') ->
  (forall s s', R s s' -> enc_req E s = enc_req E' s' \/ enc_req E s = Panic \/ enc_req E' s' = Panic) ->
  (forall s s', R s s' -> enc_idle E s = enc_idle E' s') ->
  R s s' -> ealmost E E' s s'.
Proof.
  intros S S' I R E E' s s' A B C D H ops. revert s s' H. induction ops as [|o ops IH]; intros s s' H; cbn; [constructor|].
  destruct o as [fuel buf e|fuel i| |]; cbn.
  - destruct (A _ _ H fuel buf e) as (a & a' & b & r & -> & -> & H'). constructor; [now left|]. now apply IH.
  - destruct (B _ _ H fuel i) as (a & a' & r & -> & -> & H'). constructor; [now left|]. now apply IH.
  - constructor; [|now apply IH]. destruct (C _ _ H) as [->|[->| ->]]; unfold same_eobs; auto.
  - constructor; [|now apply IH]. rewrite (D _ _ H). now left.
Qed.
Lemma eadd_assoc : forall a b c,
  let l := rbind (add_for_encoding a b) (fun q => add_for_encoding q c) in
  let r := rbind (add_for_encoding b c) (add_for_encoding a) in l = r \/ l = Panic \/ r = Panic.
Proof.
  intros [a| |] [b| |] [c| |]; cbn; unfold opt_finite, u64_add; auto;
    repeat (match goal with |- context [(?x <=? ?y)%N] => destruct (x <=? y)%N eqn:?; cbn; unfold opt_finite, u64_add end); auto;
    try lia; left; do 2 f_equal; lia.
Qed.
Lemma ereq_assoc : forall x a b c,
  let l := rbind (rbind (rbind a (add_for_encoding x)) (fun q => rbind b (add_for_encoding q))) (fun q => rbind c (add_for_encoding q)) in
  let r := rbind (rbind a (add_for_encoding x))
             (fun q => rbind (rbind (rbind b (add_for_encoding (Finite 0))) (fun q => rbind c (add_for_encoding q))) (add_for_encoding q)) in
  l = r \/ l = Panic \/ r = Panic.
Proof.
  intros x a b c. cbn zeta. destruct (rbind a (add_for_encoding x)) as [y|k| |]; cbn [rbind]; auto.
  destruct b as [b|k| |]; cbn [rbind]; auto.
  assert (Z : rbind (Ok (Finite 0)) (fun q => add_for_encoding q b) = Ok b \/ add_for_encoding (Finite 0) b = Panic).
  { destruct b; cbn; unfold opt_finite, u64_add; auto. destruct (0 + n <=? u64_max)%N; auto. }
  cbn [rbind] in Z. destruct Z as [->|Z]; [|rewrite Z; cbn; auto]. cbn [rbind].
  destruct c as [c|k| |]; cbn [rbind];
    [|destruct (add_for_encoding y b) as [?|?| |] eqn:W; cbn; auto; destruct y, b; cbn in W; unfold opt_finite in W;
      repeat (match type of W with context [match ?x with _ => _ end] => destruct x end); discriminate ..].
  exact (eadd_assoc y b c).
Qed.
Lemma same_ecall : forall A B C (x : A * B * C), exists a a' b r, x = (a, b, r) /\ x = (a', b, r) /\ a = a'.
Proof. intros A B C [[a b] r]. eauto 8. Qed.

Section Tuple.
  Context {S0 S1 S2 I0 I1 I2 : Type} (A : Encoder S0 I0) (B : Encoder S1 I1) (C : Encoder S2 I2).
  Ltac same := do 4 eexists; split; [reflexivity|]; split; reflexivity.

  Theorem C86_enc_tuple_right : forall a b c,
    ealmost (map_from_encoder (tuple2_encoder A (tuple2_encoder B C)) (fun i => (fst (fst i), (snd (fst i), snd i))))
            (tuple3_encoder A B C) (a, (b, c)) (a, b, c).
  Proof.
    intros a b c. apply (ealmost_of (fun x y => y = (fst x, fst (snd x), snd (snd x)))); auto; clear a b c;
      intros [a [b c]] y ->; cbn [fst snd].
    - intros. cbn [map_from_encoder enc_encode tuple2_encoder tuple3_encoder tuple_of_enc_parts enc_parts2 enc_parts3 ep_encode ep_snoc ep_one fst snd].
      destruct (try_encode A fuel a 0 buf e) as [[a' off|a' r] buf0]; [|same].
      set (T := tuple2_encoder B C).
      assert (ID : forall b c, enc_idle T (b, c) = enc_idle B b && enc_idle C c) by reflexivity.
      unfold try_encode at 1. rewrite ID.
      destruct (enc_idle B b && enc_idle C c) eqn:IDL.
      { apply andb_true_iff in IDL. destruct IDL as [IB IC]. unfold try_encode. rewrite IB, IC. same. }
      destruct (slice_from off buf0) as [rest|] eqn:SF.
      2: { unfold try_encode. rewrite SF. destruct (enc_idle B b), (enc_idle C c); try discriminate; rewrite ?SF; same. }
      unfold T at 1. cbn [enc_encode tuple2_encoder tuple_of_enc_parts enc_parts2 ep_encode ep_snoc ep_one fst snd].
      pose proof (@etry_shift _ _ B fuel b buf0 rest off 0 e SF) as TS. rewrite Nat.add_0_r in TS. rewrite TS. clear TS.
      destruct (try_encode B fuel b 0 rest e) as [[b' o1|b' r] buf1] eqn:TB; cbn [shifted fst snd].
      + assert (SF1 : slice_from off (firstn off buf0 ++ buf1) = Some buf1).
        { unfold slice_from in *. destruct (off <=? length buf0) eqn:L; [|discriminate].
          rewrite app_length, firstn_length. replace (Nat.min off (length buf0)) with off by lia.
          replace (off <=? off + length buf1) with true by lia. f_equal. rewrite skipn_app, firstn_length.
          replace (off - Nat.min off (length buf0)) with 0 by lia. rewrite skipn_all2 by (rewrite firstn_length; lia). reflexivity. }
        rewrite (@etry_shift _ _ C fuel c _ _ off o1 e SF1).
        assert (FF : firstn off (firstn off buf0 ++ buf1) = firstn off buf0).
        { unfold slice_from in SF. destruct (off <=? length buf0) eqn:L; [|discriminate].
          rewrite firstn_app, firstn_length, firstn_firstn. replace (off - Nat.min off (length buf0)) with 0 by lia.
          rewrite Nat.min_id, app_nil_r. reflexivity. }
        rewrite FF.
        destruct (try_encode C fuel c o1 buf1 e) as [[c' o2|c' r] buf2] eqn:TC; cbn [shifted fst snd].
        * rewrite ID, (@etry_go_idle _ _ _ _ _ _ _ _ _ _ _ TB), (@etry_go_idle _ _ _ _ _ _ _ _ _ _ _ TC). cbn. same.
        * destruct r as [n|k| |]; try same.
          rewrite ID, (@etry_ret_idle _ _ _ _ _ _ _ _ _ _ _ TC), andb_false_r. same.
      + destruct r as [n|k| |]; try same.
        rewrite ID, (@etry_ret_idle _ _ _ _ _ _ _ _ _ _ _ TB). cbn. same.
    - intros fuel [[i j] k]. cbn.
      destruct (enc_start A fuel a i) as [a' [?|?| |]]; cbn; try (do 3 eexists; split; [reflexivity|]; split; reflexivity).
      destruct (enc_start B fuel b j) as [b' [?|?| |]]; cbn; try (do 3 eexists; split; [reflexivity|]; split; reflexivity).
      destruct (enc_start C fuel c k) as [c' ?]; cbn; do 3 eexists; (split; [reflexivity|]; split; reflexivity).
    - cbn. destruct (ereq_assoc (Finite 0) (enc_req A a) (enc_req B b) (enc_req C c)) as [H|[H|H]]; auto.
    - cbn. now rewrite andb_assoc.
  Qed.

  Theorem C86_enc_tuple_left : forall a b c,
    ealmost (tuple2_encoder (tuple2_encoder A B) C) (tuple3_encoder A B C) (a, b, c) (a, b, c).
  Proof.
    intros a b c. apply (ealmost_of eq); auto; clear a b c; intros [[a b] c] ? <-.
    - intros. cbn [enc_encode tuple2_encoder tuple3_encoder tuple_of_enc_parts enc_parts2 enc_parts3 ep_encode ep_snoc ep_one fst snd].
      set (T := tuple2_encoder A B).
      assert (ID : forall a b, enc_idle T (a, b) = enc_idle A a && enc_idle B b) by reflexivity.
      unfold try_encode at 1. rewrite ID.
      destruct (enc_idle A a && enc_idle B b) eqn:IDL.
      { apply andb_true_iff in IDL. destruct IDL as [IA IB].
        assert (X : try_encode A fuel a 0 buf e = (TGo a 0, buf)) by (unfold try_encode; now rewrite IA). rewrite X.
        assert (Y : try_encode B fuel b 0 buf e = (TGo b 0, buf)) by (unfold try_encode; now rewrite IB). rewrite Y. apply same_ecall. }
      rewrite slice_from_0. unfold T at 1. cbn [enc_encode tuple2_encoder tuple_of_enc_parts enc_parts2 ep_encode ep_snoc ep_one fst snd].
      destruct (try_encode A fuel a 0 buf e) as [[a' o1|a' r] b1] eqn:TA.
      + destruct (try_encode B fuel b o1 b1 e) as [[b' o2|b' r] b2] eqn:TB.
        * rewrite ID, (@etry_go_idle _ _ _ _ _ _ _ _ _ _ _ TA), (@etry_go_idle _ _ _ _ _ _ _ _ _ _ _ TB). cbn. apply same_ecall.
        * destruct r as [n|k| |]; try same.
          rewrite ID, (@etry_ret_idle _ _ _ _ _ _ _ _ _ _ _ TB), andb_false_r. cbn. apply same_ecall.
      + destruct r as [n|k| |]; try same.
        rewrite ID, (@etry_ret_idle _ _ _ _ _ _ _ _ _ _ _ TA). cbn. apply same_ecall.
    - intros fuel [[i j] k]. cbn.
      destruct (enc_start A fuel a i) as [a' [?|?| |]]; cbn; try (do 3 eexists; split; [reflexivity|]; split; reflexivity).
      destruct (enc_start B fuel b j) as [b' [?|?| |]]; cbn; try (do 3 eexists; split; [reflexivity|]; split; reflexivity).
      destruct (enc_start C fuel c k) as [c' ?]; cbn; do 3 eexists; (split; [reflexivity|]; split; reflexivity).
    - cbn.
      set (x := rbind (rbind (enc_req A a) (add_for_encoding (Finite 0))) (fun q => rbind (enc_req B b) (add_for_encoding q))).
      assert (Z : rbind x (add_for_encoding (Finite 0)) = x \/ rbind x (add_for_encoding (Finite 0)) = Panic).
      { destruct x as [[n| |]| | |]; cbn; auto. unfold opt_finite, u64_add. destruct (0 + n <=? u64_max)%N; auto. }
      destruct Z as [Z|Z]; rewrite Z; auto.
    - reflexivity.
  Qed.
End Tuple.
Print Assumptions C86_enc_tuple_right.
Print Assumptions C86_enc_tuple_left.

(** ** The hypotheses are met *)
Example C86_honest_examples :
  honest (max_decoder rem_decoder) /\ honest (num_decoder (fun b : list byte => b)) /\ ehonest (bytes_encoder vec_box) /\
  ehonest (length_encoder (repeat_encoder (bytes_encoder vec_box))).
Proof.
  split; [apply max_honest, rem_honest|]. split; [apply num_honest|].
  split; apply wo_ehonest; [apply bytes_wo|apply length_wo, repeat_wo, bytes_wo].
Qed.
(** Two limits and one, with an error half way and a call after it. *)
Example C86_enc_max_bytes_twice_example :
  let ops := [OpStart 9 [x01; x02; x03; x04]; OpEncode 9 [x00; x00] (eos_new false);
              OpEncode 9 [x00; x00] (eos_new false); OpEIdle; OpStart 9 [x05]; OpEncode 9 [x00] (eos_new true)] in
  enc_trace (max_encoder (bytes_encoder vec_box)) (mkMax bytes_enc_new 0 (N.min 9 3)) ops =
    [ObStart (Ok tt); ObEncode [x01; x02] (Ok 2); ObEncode [x03; x04] (Err InvalidInput); ObEIdle true;
     ObStart (Ok tt); ObEncode [x05] (Err InvalidInput)] /\
  Forall (fun b => ~ encode_panics b)
    (enc_trace (max_encoder (bytes_encoder vec_box)) (mkMax bytes_enc_new 0 (N.min 9 3)) ops) /\
  enc_trace (max_encoder (max_encoder (bytes_encoder vec_box))) (mkMax (mkMax bytes_enc_new 0 9) 0 3) ops =
  enc_trace (max_encoder (bytes_encoder vec_box)) (mkMax bytes_enc_new 0 (N.min 9 3)) ops.
Proof.
  cbv zeta. split; [vm_compute; reflexivity|]. split; [|vm_compute; reflexivity].
  vm_compute. repeat constructor; auto.
Qed.
(** [requiring_bytes] of a nested tuple can overflow where that of the flat one does not. *)
Theorem C86_tuple_overflow :
  let n := length_new (pad_dec_new None) u64_max in
  let D := length_decoder pad_decoder in
  dec_req (tuple2_decoder pad_decoder (tuple2_decoder D D)) (pad_dec_new None, (n, n)) = Panic /\
  dec_req (tuple3_decoder pad_decoder D D) (pad_dec_new None, n, n) = Ok Infinite.
Proof. vm_compute. auto. Qed.
Print Assumptions C86_enc_length_twice_refuted.
Print Assumptions C86_tuple_overflow.
