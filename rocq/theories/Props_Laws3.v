(** * C86, continued: nested tuples and nested [and_then] *)
From Verif Require Export Props_Laws.
From Verif Require Import Lib Fixnum.
From Coq Require Import Lia ZifyBool ZifyNat ZifyN.
Set Implicit Arguments.
Local Arguments Nat.eqb : simpl never.
Local Arguments N.eqb : simpl never.
Local Arguments N.leb : simpl never.
Local Arguments N.add : simpl never.

(** A step on the rest of the buffer is a step at an offset. *)
Definition shifted {S} (off : nat) (t : tried S) : tried S :=
  match t with TGo s k => TGo s (off + k) | TRet s (Ok n) => TRet s (Ok (off + n)) | t => t end.
Lemma slice_from_shift : forall (buf b : list byte) off k, slice_from off buf = Some b ->
  slice_from (off + k) buf = slice_from k b.
Proof.
  intros buf b off k H. unfold slice_from in *. destruct (off <=? length buf) eqn:L; [|discriminate]. injection H as <-.
  rewrite skipn_length, skipn_skipn.
  destruct (k <=? length buf - off) eqn:K, (off + k <=? length buf) eqn:M; try lia; auto. do 2 f_equal. lia.
Qed.
Lemma try_shift : forall S I (D : Decoder S I) fuel s buf b off k e, slice_from off buf = Some b ->
  try_decode D fuel s (off + k) buf e = shifted off (try_decode D fuel s k b e).
Proof.
  intros S I D fuel s buf b off k e H. unfold try_decode. destruct (dec_idle D s); auto.
  rewrite (@slice_from_shift _ _ _ _ H). destruct (slice_from k b); auto.
  destruct (dec_decode D fuel s l e) as [s' [n|x| |]]; auto.
  destruct (dec_idle D s'); cbn; now rewrite Nat.add_assoc.
Qed.
Lemma try_go_idle : forall S I (D : Decoder S I) fuel s off buf e s' off',
  try_decode D fuel s off buf e = TGo s' off' -> dec_idle D s' = true.
Proof.
  intros S I D fuel s off buf e s' off' H. unfold try_decode in H. destruct (dec_idle D s) eqn:X; [inversion H; subst; auto|].
  destruct (slice_from off buf); [|discriminate]. destruct (dec_decode D fuel s l e) as [s1 [n|x| |]]; try discriminate.
  destruct (dec_idle D s1) eqn:Y; inversion H; subst; auto.
Qed.
Lemma try_ret_idle : forall S I (D : Decoder S I) fuel s off buf e s' n,
  try_decode D fuel s off buf e = TRet s' (Ok n) -> dec_idle D s' = false.
Proof.
  intros S I D fuel s off buf e s' n H. unfold try_decode in H. destruct (dec_idle D s) eqn:X; [discriminate|].
  destruct (slice_from off buf); [|discriminate]. destruct (dec_decode D fuel s l e) as [s1 [m|x| |]]; try discriminate.
  destruct (dec_idle D s1) eqn:Y; inversion H; subst; auto.
Qed.

(** ** Tuples

    The same observation, except that [requiring_bytes] may overflow on one side only. *)
Definition same_obs {I} (x y : dec_obs I) : Prop := x = y \/ x = ObReq Panic \/ y = ObReq Panic.
Definition dalmost {S S' I} (D : Decoder S I) (D' : Decoder S' I) (s : S) (s' : S') : Prop :=
  forall ops, Forall2 same_obs (dec_trace D s ops) (dec_trace D' s' ops).
Lemma almost_of : forall S S' I (R : S -> S' -> Prop) (D : Decoder S I) (D' : Decoder S' I) s s',
  (forall s s', R s s' -> forall fuel buf e,
     exists a a' r, dec_decode D fuel s buf e = (a, r) /\ dec_decode D' fuel s' buf e = (a', r) /\ R a a') ->
  (forall s s', R s s' ->
     exists a a' r, dec_finish D s = (a, r) /\ dec_finish D' s' = (a', r) /\ R a a') ->
  (forall s s', R s s' -> dec_req D s = dec_req D' s' \/ dec_req D s = Panic \/ dec_req D' s' = Panic) ->
  (forall s s', R s s' -> dec_idle D s = dec_idle D' s') ->
  R s s' -> dalmost D D' s s'.
Proof.
  intros S S' I R D D' s s' A B C E H ops. revert s s' H. induction ops as [|o ops IH]; intros s s' H; cbn; [constructor|].
  destruct o as [fuel buf e| | |]; cbn.
  - destruct (A _ _ H fuel buf e) as (a & a' & r & -> & -> & H'). constructor; [now left|]. now apply IH.
  - destruct (B _ _ H) as (a & a' & r & -> & -> & H'). constructor; [now left|]. now apply IH.
  - constructor; [|now apply IH]. destruct (C _ _ H) as [->|[->| ->]]; unfold same_obs; auto.
  - constructor; [|now apply IH]. rewrite (E _ _ H). now left.
Qed.

Lemma add_assoc : forall a b c,
  let l := rbind (add_for_decoding a b) (fun q => add_for_decoding q c) in
  let r := rbind (add_for_decoding b c) (add_for_decoding a) in l = r \/ l = Panic \/ r = Panic.
Proof.
  intros [a| |] [b| |] [c| |]; cbn; unfold opt_finite, u64_add; auto;
    repeat (match goal with |- context [(?x <=? ?y)%N] => destruct (x <=? y)%N eqn:?; cbn; unfold opt_finite, u64_add end); auto;
    repeat (match goal with |- context [(?x =? 0)%N] => destruct (x =? 0)%N eqn:?; cbn; unfold opt_finite, u64_add end); auto;
    repeat (match goal with |- context [(?x <=? ?y)%N] => destruct (x <=? y)%N eqn:?; cbn; unfold opt_finite, u64_add end); auto;
    try lia; left; do 2 f_equal; lia.
Qed.

Lemma req_assoc : forall x a b c,
  let l := rbind (rbind (rbind a (add_for_decoding x)) (fun q => rbind b (add_for_decoding q))) (fun q => rbind c (add_for_decoding q)) in
  let r := rbind (rbind a (add_for_decoding x))
             (fun q => rbind (rbind (rbind b (add_for_decoding (Finite 0))) (fun q => rbind c (add_for_decoding q))) (add_for_decoding q)) in
  l = r \/ l = Panic \/ r = Panic.
Proof.
  intros x a b c. cbn zeta. destruct (rbind a (add_for_decoding x)) as [y|k| |]; cbn [rbind]; auto.
  destruct b as [b|k| |]; cbn [rbind]; auto.
  assert (Z : rbind (Ok (Finite 0)) (fun q => add_for_decoding q b) = Ok b \/ add_for_decoding (Finite 0) b = Panic).
  { destruct b; cbn; unfold opt_finite, u64_add; auto. destruct (0 + n <=? u64_max)%N; auto. }
  cbn [rbind] in Z. destruct Z as [->|Z]; [|rewrite Z; cbn; auto]. cbn [rbind].
  destruct c as [c|k| |]; cbn [rbind];
    [|destruct (add_for_decoding y b) as [?|?| |] eqn:W; cbn; auto; destruct y, b; cbn in W; unfold opt_finite in W;
      repeat (match type of W with context [match ?x with _ => _ end] => destruct x end); discriminate ..].
  exact (add_assoc y b c).
Qed.

Section Tuple.
  Context {S0 S1 S2 I0 I1 I2 : Type} (A : Decoder S0 I0) (B : Decoder S1 I1) (C : Decoder S2 I2).

  (** [(A, (B, C))] is [(A, B, C)], up to the shape of the item. *)
  Theorem C86_tuple_right : forall a b c,
    dalmost (map_decoder (tuple2_decoder A (tuple2_decoder B C)) (fun i => (fst i, fst (snd i), snd (snd i))))
            (tuple3_decoder A B C) (a, (b, c)) (a, b, c).
  Proof.
    intros a b c. apply (almost_of (fun x y => y = (fst x, fst (snd x), snd (snd x)))); auto; clear a b c;
      intros [a [b c]] y ->; cbn [fst snd].
    - intros. cbn [map_decoder dec_decode tuple2_decoder tuple3_decoder tuple_of_dec_parts dec_parts2 dec_parts3 dp_decode dp_snoc dp_one fst snd].
      destruct (try_decode A fuel a 0 buf e) as [a' off|a' r]; [|do 3 eexists; split; [reflexivity|]; split; reflexivity].
      set (T := tuple2_decoder B C).
      assert (ID : forall b c, dec_idle T (b, c) = dec_idle B b && dec_idle C c) by reflexivity.
      unfold try_decode at 1. rewrite ID.
      destruct (dec_idle B b && dec_idle C c) eqn:IDL.
      { apply andb_true_iff in IDL. destruct IDL as [IB IC].
        unfold try_decode. rewrite IB, IC. do 3 eexists; split; [reflexivity|]; split; reflexivity. }
      destruct (slice_from off buf) as [rest|] eqn:SF.
      2: { unfold try_decode. rewrite SF. destruct (dec_idle B b), (dec_idle C c); try discriminate; rewrite ?SF;
             do 3 eexists; (split; [reflexivity|]; split; reflexivity). }
      unfold T at 1. cbn [dec_decode tuple2_decoder tuple_of_dec_parts dec_parts2 dp_decode dp_snoc dp_one fst snd].
      pose proof (@try_shift _ _ B fuel b buf rest off 0 e SF) as TS. rewrite Nat.add_0_r in TS. rewrite TS. clear TS.
      destruct (try_decode B fuel b 0 rest e) as [b' o1|b' r] eqn:TB; cbn [shifted].
      + rewrite (@try_shift _ _ C fuel c buf rest off o1 e SF).
        destruct (try_decode C fuel c o1 rest e) as [c' o2|c' r] eqn:TC; cbn [shifted].
        * rewrite ID, (@try_go_idle _ _ _ _ _ _ _ _ _ _ TB), (@try_go_idle _ _ _ _ _ _ _ _ _ _ TC). cbn.
          do 3 eexists; split; [reflexivity|]; split; reflexivity.
        * destruct r as [n|k| |]; try (do 3 eexists; split; [reflexivity|]; split; reflexivity).
          rewrite ID, (@try_ret_idle _ _ _ _ _ _ _ _ _ _ TC), andb_false_r. do 3 eexists; split; [reflexivity|]; split; reflexivity.
      + destruct r as [n|k| |]; try (do 3 eexists; split; [reflexivity|]; split; reflexivity).
        rewrite ID, (@try_ret_idle _ _ _ _ _ _ _ _ _ _ TB). cbn. do 3 eexists; split; [reflexivity|]; split; reflexivity.
    - cbn. destruct (dec_finish A a) as [a' [i|k| |]]; cbn; try (do 3 eexists; split; [reflexivity|]; split; reflexivity).
      destruct (dec_finish B b) as [b' [j|k| |]]; cbn; try (do 3 eexists; split; [reflexivity|]; split; reflexivity).
      destruct (dec_finish C c) as [c' [k|k| |]]; cbn; do 3 eexists; (split; [reflexivity|]; split; reflexivity).
    - cbn. destruct (req_assoc (Finite 0) (dec_req A a) (dec_req B b) (dec_req C c)) as [H|[H|H]]; auto.
    - cbn. now rewrite andb_assoc.
  Qed.

  (** [((A, B), C)] is [(A, B, C)]. *)
  Theorem C86_tuple_left : forall a b c,
    dalmost (tuple2_decoder (tuple2_decoder A B) C) (tuple3_decoder A B C) (a, b, c) (a, b, c).
  Proof.
    intros a b c. apply (almost_of eq); auto; clear a b c; intros [[a b] c] ? <-.
    - intros. cbn [dec_decode tuple2_decoder tuple3_decoder tuple_of_dec_parts dec_parts2 dec_parts3 dp_decode dp_snoc dp_one fst snd].
      set (T := tuple2_decoder A B).
      assert (ID : forall a b, dec_idle T (a, b) = dec_idle A a && dec_idle B b) by reflexivity.
      unfold try_decode at 1. rewrite ID.
      destruct (dec_idle A a && dec_idle B b) eqn:IDL.
      { apply andb_true_iff in IDL. destruct IDL as [IA IB].
        assert (X : try_decode A fuel a 0 buf e = TGo a 0) by (unfold try_decode; now rewrite IA). rewrite X.
        assert (Y : try_decode B fuel b 0 buf e = TGo b 0) by (unfold try_decode; now rewrite IB). rewrite Y. apply same_call. }
      rewrite slice_from_0. unfold T at 1. cbn [dec_decode tuple2_decoder tuple_of_dec_parts dec_parts2 dp_decode dp_snoc dp_one fst snd].
      destruct (try_decode A fuel a 0 buf e) as [a' o1|a' r] eqn:TA.
      + destruct (try_decode B fuel b o1 buf e) as [b' o2|b' r] eqn:TB.
        * rewrite ID, (@try_go_idle _ _ _ _ _ _ _ _ _ _ TA), (@try_go_idle _ _ _ _ _ _ _ _ _ _ TB). cbn. apply same_call.
        * destruct r as [n|k| |]; try (do 3 eexists; split; [reflexivity|]; split; reflexivity).
          rewrite ID, (@try_ret_idle _ _ _ _ _ _ _ _ _ _ TB), andb_false_r. cbn. eauto 6.
      + destruct r as [n|k| |]; try (do 3 eexists; split; [reflexivity|]; split; reflexivity).
        rewrite ID, (@try_ret_idle _ _ _ _ _ _ _ _ _ _ TA). cbn. eauto 6.
    - cbn. destruct (dec_finish A a) as [a' [i|k| |]]; cbn; try (do 3 eexists; split; [reflexivity|]; split; reflexivity).
      destruct (dec_finish B b) as [b' [j|k| |]]; cbn; try (do 3 eexists; split; [reflexivity|]; split; reflexivity).
      destruct (dec_finish C c) as [c' [k|k| |]]; cbn; do 3 eexists; (split; [reflexivity|]; split; reflexivity).
    - cbn.
      set (x := rbind (rbind (dec_req A a) (add_for_decoding (Finite 0))) (fun q => rbind (dec_req B b) (add_for_decoding q))).
      assert (Z : rbind x (add_for_decoding (Finite 0)) = x \/ rbind x (add_for_decoding (Finite 0)) = Panic).
      { destruct x as [[n| |]| | |]; cbn; auto. unfold opt_finite, u64_add. destruct (0 + n <=? u64_max)%N; auto. }
      destruct Z as [Z|Z]; rewrite Z; auto.
    - reflexivity.
  Qed.
End Tuple.
Print Assumptions C86_tuple_right.
Print Assumptions C86_tuple_left.

(** ** [and_then] after [and_then]

    As long as no call fails, [a.and_then(f).and_then(g)] is [a.and_then(|x| f(x).and_then(g))]. *)
Definition obs_ok {I} (b : dec_obs I) : Prop :=
  match b with ObDecode (Ok _) | ObFinish (Ok _) | ObReq _ | ObIdle _ => True | _ => False end.
Section Assoc.
  Context {S0 S1 S2 I0 I1 I2 : Type} (A : Decoder S0 I0) (B : Decoder S1 I1) (C : Decoder S2 I2) (f : I0 -> S1) (g : I1 -> S2).
  Let L := and_then_decoder (and_then_decoder A B f) C g.
  Let R := and_then_decoder A (and_then_decoder B C g) (fun i => and_then_new (f i)).
  Inductive assoc_rel : AndThen (AndThen S0 S1) S2 -> AndThen S0 (AndThen S1 S2) -> Prop :=
  | as_first : forall a, assoc_rel (mkAndThen (mkAndThen a None) None) (mkAndThen a None)
  | as_second : forall a b, assoc_rel (mkAndThen (mkAndThen a (Some b)) None) (mkAndThen a (Some (mkAndThen b None)))
  | as_third : forall a b c, assoc_rel (mkAndThen (mkAndThen a None) (Some c)) (mkAndThen a (Some (mkAndThen b (Some c)))).

  (** The second and third part, from an offset on. *)
  Lemma assoc_body : forall fuel a b off buf e l,
    match match try_decode B fuel b off buf e with
          | TGo b' o => (mkAndThen a (Some b'), Ok o)
          | TRet b' r => (mkAndThen a (Some b'), r) end with
    | (s', Ok n) => if dec_idle (and_then_decoder A B f) s' then
        match dec_finish (and_then_decoder A B f) s' with
        | (s0', Ok i) => and_then_body C fuel s0' (g i) n buf e
        | (s0', r) => (mkAndThen s0' None, rcast r) end
        else (mkAndThen s' None, Ok n)
    | (s', r) => (mkAndThen s' None, r)
    end = l -> slice_from off buf <> None ->
    (forall n, snd l = Ok n ->
       exists r', and_then_body (and_then_decoder B C g) fuel a (and_then_new b) off buf e = (r', Ok n) /\ assoc_rel (fst l) r').
  Proof.
    intros fuel a b off buf e l <- SF n H.
    destruct (slice_from off buf) as [rest|] eqn:SR; [clear SF|congruence].
    unfold and_then_body at 1, try_decode at 1. cbn [dec_idle and_then_decoder and_then_new at_inner1]. rewrite SR.
    cbn [dec_decode and_then_decoder]. unfold and_then_decode. cbn [at_inner1 at_inner0 and_then_new].
    pose proof (@try_shift _ _ B fuel b buf rest off 0 e SR) as TS. rewrite Nat.add_0_r in TS. rewrite TS in H |- *. clear TS.
    destruct (try_decode B fuel b 0 rest e) as [b' o|b' r] eqn:TB; cbn [shifted] in H |- *.
    - cbn [dec_idle dec_finish and_then_decoder at_inner1 at_inner0] in H |- *.
      rewrite (@try_go_idle _ _ _ _ _ _ _ _ _ _ TB) in H |- *.
      destruct (dec_finish B b') as [b'' [i|k| |]]; cbn [snd fst] in H |- *; try discriminate H.
      unfold and_then_body in H |- *. rewrite (@try_shift _ _ C fuel (g i) buf rest off o e SR) in H |- *.
      destruct (try_decode C fuel (g i) o rest e) as [c' o2|c' r] eqn:TC; cbn [shifted snd fst at_inner1] in H |- *.
      + injection H as <-. rewrite (@try_go_idle _ _ _ _ _ _ _ _ _ _ TC). eexists; split; [reflexivity|constructor].
      + destruct r as [m|k| |]; try discriminate H. cbn in H. injection H as <-.
        cbn [dec_idle at_inner1]. rewrite (@try_ret_idle _ _ _ _ _ _ _ _ _ _ TC). eexists; split; [reflexivity|constructor].
    - destruct r as [m|k| |]; cbn [shifted] in H |- *; try discriminate H.
      cbn [dec_idle and_then_decoder at_inner1] in H |- *. rewrite (@try_ret_idle _ _ _ _ _ _ _ _ _ _ TB) in H |- *.
      cbn in H. injection H as <-. eexists; split; [reflexivity|constructor].
  Qed.

  Lemma assoc_decode : honest A -> forall fuel l r buf e l' n, assoc_rel l r ->
    dec_decode L fuel l buf e = (l', Ok n) -> exists r', dec_decode R fuel r buf e = (r', Ok n) /\ assoc_rel l' r'.
  Proof.
    intros HA fuel l r buf e l' n REL H. unfold L, R in *. cbn [dec_decode and_then_decoder] in *. unfold and_then_decode in H at 1. unfold and_then_decode.
    destruct REL as [a|a b|a b c]; cbn [at_inner1 at_inner0] in *.
    - unfold try_decode at 1 in H. cbn [dec_idle and_then_decoder at_inner1 dec_decode] in H. rewrite slice_from_0 in H.
      unfold and_then_decode in H. cbn [at_inner1 at_inner0] in H.
      destruct (try_decode A fuel a 0 buf e) as [a' o|a' q] eqn:TA.
      + assert (LO : o <= length buf).
        { unfold try_decode in TA. destruct (dec_idle A a); [inversion TA; lia|]. rewrite slice_from_0 in TA.
          destruct (dec_decode A fuel a buf e) as [a1 [m|k| |]] eqn:DA; try discriminate. apply HA in DA.
          destruct (dec_idle A a1); inversion TA; subst; cbn; lia. }
        destruct (dec_finish A a') as [a'' [i|k| |]]; cbn [rcast] in H; try discriminate H.
        edestruct (@assoc_body fuel a'' (f i) o buf e (l', Ok n)) as (r' & X & Y); [|unfold slice_from; replace (o <=? length buf) with true by lia; discriminate|reflexivity|].
        * unfold and_then_body in H at 1. destruct (try_decode B fuel (f i) o buf e) as [b' o1|b' q].
          -- cbn [at_inner1] in H. destruct (dec_idle B b') eqn:IB; cbn [dec_idle dec_finish and_then_decoder at_inner1 at_inner0] in *; rewrite IB; cbn [Nat.add] in H; exact H.
          -- destruct q as [m|k| |]; try discriminate H. cbn [at_inner1] in H. cbn [dec_idle dec_finish and_then_decoder at_inner1 at_inner0] in *.
             destruct (dec_idle B b') eqn:IB; cbn [Nat.add] in H; exact H.
        * exists r'. auto.
      + destruct q as [m|k| |]; try discriminate H. cbn [at_inner1 Nat.add] in H. injection H as <- <-. eexists. split; [reflexivity|constructor].
    - edestruct (@assoc_body fuel a b 0 buf e (l', Ok n)) as (r' & X & Y); [|rewrite slice_from_0; discriminate|reflexivity|exists r'; auto].
      unfold try_decode at 1 in H. cbn [dec_idle and_then_decoder at_inner1 dec_decode] in H. rewrite slice_from_0 in H.
      unfold and_then_decode in H. cbn [at_inner1 at_inner0] in H. unfold and_then_body in H at 1.
      destruct (dec_idle B b) eqn:IB0.
      { unfold try_decode at 1. rewrite IB0. cbn [dec_idle and_then_decoder at_inner1]. rewrite IB0. exact H. }
      destruct (try_decode B fuel b 0 buf e) as [b' o1|b' q].
      + cbn [at_inner1] in H. destruct (dec_idle B b') eqn:IB; cbn [dec_idle dec_finish and_then_decoder at_inner1 at_inner0] in *; rewrite IB; cbn [Nat.add] in H; exact H.
      + destruct q as [m|k| |]; try discriminate H. cbn [at_inner1] in H. cbn [dec_idle dec_finish and_then_decoder at_inner1 at_inner0] in *.
        destruct (dec_idle B b') eqn:IB; cbn [Nat.add] in H; exact H.
    - unfold and_then_body in H |- *. unfold try_decode at 1. cbn [dec_idle and_then_decoder at_inner1 dec_decode]. rewrite slice_from_0.
      unfold and_then_decode. cbn [at_inner1 at_inner0]. unfold and_then_body.
      unfold try_decode in *. destruct (dec_idle C c) eqn:IC.
      { injection H as <- <-. eexists. split; [reflexivity|constructor]. }
      rewrite slice_from_0 in *. destruct (dec_decode C fuel c buf e) as [c' [m|k| |]]; try discriminate H.
      destruct (dec_idle C c') eqn:IC'; injection H as <- <-; cbn [at_inner1]; rewrite IC'; eexists; (split; [reflexivity|constructor]).
  Qed.
  Theorem C86_and_then_assoc : honest A -> forall a ops,
    Forall obs_ok (dec_trace L (and_then_new (and_then_new a)) ops) ->
    dec_trace R (and_then_new a) ops = dec_trace L (and_then_new (and_then_new a)) ops.
  Proof.
    intros HA a ops.
    assert (G : forall l r, assoc_rel l r -> Forall obs_ok (dec_trace L l ops) -> dec_trace R r ops = dec_trace L l ops);
      [|apply G; constructor].
    clear a. induction ops as [|o ops IH]; intros l r REL F; auto.
    destruct o as [fuel buf e| | |]; cbn [dec_trace dec_do] in F |- *.
    - destruct (dec_decode L fuel l buf e) as [l' q] eqn:DL. inversion F as [|? ? OK F']; subst. destruct q as [n|k| |]; try contradiction.
      destruct (@assoc_decode HA fuel l r buf e l' n REL DL) as (r' & -> & REL'). f_equal. now apply IH.
    - destruct (dec_finish L l) as [l' q] eqn:FL. inversion F as [|? ? OK F']; subst. destruct q as [n|k| |]; try contradiction.
      unfold L, R in *. destruct REL as [a|a b|a b c]; cbn in FL |- *; try discriminate FL.
      injection FL as <- FC. rewrite FC. f_equal. apply IH; auto. constructor.
    - inversion F; subst. unfold L, R in *. rewrite (IH _ _ REL) by auto. destruct REL; reflexivity.
    - inversion F; subst. unfold L, R in *. rewrite (IH _ _ REL) by auto. destruct REL; reflexivity.
  Qed.
End Assoc.
Print Assumptions C86_and_then_assoc.

(** After a failure the two differ: if the middle part refuses its item, the left form begins again with the first
    part and the right form with the middle part; and a premature [finish_decoding] loses the middle part in the
    right form only. *)
Section Differ.
  Let mid := try_map_decoder U8Decoder (fun n => if (n =? 0)%N then inr InvalidInput else inl n).
  Let L := and_then_decoder (and_then_decoder U8Decoder mid (fun _ => num_dec_new 1)) U16beDecoder (fun _ => num_dec_new 2).
  Let R := and_then_decoder U8Decoder (and_then_decoder mid U16beDecoder (fun _ => num_dec_new 2)) (fun _ => and_then_new (num_dec_new 1)).
  Let u := Unknown.
  Theorem C86_and_then_assoc_refuted :
    let ops := [OpDecode 9 [x01; x00] u; OpDecode 9 [x05; x06; x07; x08] u; OpFinish] in
    dec_trace L (and_then_new (and_then_new (num_dec_new 1))) ops
      = [ObDecode (Err InvalidInput); ObDecode (Ok 4); ObFinish (Ok 1800)%N] /\
    dec_trace R (and_then_new (num_dec_new 1)) ops
      = [ObDecode (Err InvalidInput); ObDecode (Ok 3); ObFinish (Ok 1543)%N].
  Proof. vm_compute. auto. Qed.
  Theorem C86_and_then_premature_refuted :
    let ops := [OpDecode 9 [x01] u; OpFinish; OpDecode 9 [x05; x06; x07; x08] u; OpIdle] in
    dec_trace L (and_then_new (and_then_new (num_dec_new 1))) ops
      = [ObDecode (Ok 1); ObFinish (Err IncompleteDecoding); ObDecode (Ok 3); ObIdle true] /\
    dec_trace R (and_then_new (num_dec_new 1)) ops
      = [ObDecode (Ok 1); ObFinish (Err IncompleteDecoding); ObDecode (Ok 4); ObIdle true].
  Proof. vm_compute. auto. Qed.
  (** The hypothesis is met by a history that goes through all three parts, twice. *)
  Example C86_and_then_assoc_example :
    let ops := [OpDecode 9 [x01] u; OpReq; OpDecode 9 [x05; x06] u; OpIdle; OpDecode 9 [x07; x08] u; OpIdle; OpFinish;
                OpDecode 9 [x01; x02; x03; x04] u; OpFinish] in
    let t := dec_trace L (and_then_new (and_then_new (num_dec_new 1))) ops in
    t = [ObDecode (Ok 1); ObReq (Ok (Finite 1)); ObDecode (Ok 2); ObIdle false; ObDecode (Ok 1); ObIdle true; ObFinish (Ok 1543)%N;
         ObDecode (Ok 4); ObFinish (Ok 772)%N] /\ Forall obs_ok t.
  Proof. vm_compute. split; [reflexivity|]. repeat constructor. Qed.
End Differ.
Print Assumptions C86_and_then_assoc_refuted.
Print Assumptions C86_and_then_premature_refuted.
