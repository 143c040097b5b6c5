(** * Safety of every composition: proofs. *)
From Coq Require Import Lia ZifyBool ZifyNat ZifyN.
From Verif Require Export Safe Lib.
Set Implicit Arguments.

Lemma len_app_le : forall n (buf : list byte), n <= length buf ->
  (len (skipn n buf) + N.of_nat n = len buf)%N.
Proof. intros. unfold len. rewrite skipn_length. lia. Qed.
Lemma eos_fits_skip : forall M n buf e, eos_fits M buf e -> eos_fits M (skipn n buf) e.
Proof. intros M n buf [m| |]; cbn; auto. unfold len. rewrite skipn_length. lia. Qed.
Lemma eos_fits_le : forall M M' buf e, (M' <= M)%N -> eos_fits M' buf e -> eos_fits M buf e.
Proof. intros M M' buf [m| |]; cbn; auto. lia. Qed.
Lemma slice_from_some : forall off (buf : list byte), off <= length buf ->
  slice_from off buf = Some (skipn off buf).
Proof. intros. unfold slice_from. replace (off <=? length buf) with true by lia. reflexivity. Qed.

Ltac inj H := injection H as <- <-.
Ltac case_res X r := destruct r as [?n|?k| |]; cbn in X.

(** ** Primitives *)
Section CopyS.
  Context {B : Type} (BX : ByteBox B) (OK : box_ok BX).
  Lemma put_length : forall b off src, off + length src <= length (bx_ref BX b) ->
    length (bx_ref BX (bx_put BX b (overwrite (bx_ref BX b) off src))) = length (bx_ref BX b).
  Proof.
    intros b off src H. destruct OK as [H1 _]. rewrite H1; rewrite overwrite_length; auto.
  Qed.

  Lemma copy_dsafe : forall b0, dec_safe (copy_decoder BX) u64_max (len (bx_ref BX b0)) true
      (fun b => length (bx_ref BX b) = length (bx_ref BX b0)) (fun _ _ => False)
      (fun s => s = copy_dec_new b0).
  Proof.
    intros b0. exists (fun _ s => cd_off s <= length (bx_ref BX (cd_bytes s)) /\
      length (bx_ref BX (cd_bytes s)) = length (bx_ref BX b0)).
    split; [constructor|]; auto; try (intros; tauto).
    - cbv; discriminate.
    - intros t [b off] fuel buf e s' r [H1 H2] _ _ X. cbn in *. unfold copy_decode in X. cbn in X.
      unfold usize_sub in X. replace (off <=? length (bx_ref BX b)) with true in X by lia.
      set (size := Nat.min (length buf) (length (bx_ref BX b) - off)) in *.
      assert (PL : length (bx_ref BX (bx_put BX b (overwrite (bx_ref BX b) off (firstn size buf))))
                   = length (bx_ref BX b)).
      { apply put_length. rewrite firstn_length. lia. }
      set (b' := bx_put BX b _) in *. clearbody b'.
      destruct (_ && _); inj X; cbn; rewrite ?PL; auto; try lia.
    - intros t [b off] s' r [H1 H2] X. cbn in *. unfold copy_finish in X. cbn in X.
      destruct (off =? _) eqn:E; inj X; cbn; auto. split; auto. split; auto. lia.
    - intros t [b off] [H1 H2]. cbn in *. unfold usize_sub.
      replace (off <=? length (bx_ref BX b)) with true by lia. unfold len. lia.
    - intros s ->. cbn. lia.
  Qed.

  Lemma bytes_dsafe : forall mx, dec_safe (bytes_decoder BX) u64_max mx true
      (fun b => (len (bx_ref BX b) <= mx)%N)
      (fun s s' => exists b, (len (bx_ref BX b) <= mx)%N /\ s' = bytes_dec_set s b)
      (fun s => s = bytes_dec_default \/
                exists b, (len (bx_ref BX b) <= mx)%N /\ s = bytes_dec_new b).
  Proof.
    intros mx. exists (fun _ s => match bd_bytes s with
      | None => True
      | Some b => bd_off s <= length (bx_ref BX b) /\ (len (bx_ref BX b) <= mx)%N end).
    split; [constructor|]; auto.
    - cbv; discriminate.
    - intros t s s' _ (b & L & ->). cbn. lia.
    - intros t [[b|] off] fuel buf e s' r H _ _ X; cbn in *; [|unfold bytes_decode in X; cbn in X; inj X; exact I].
      destruct H as [H1 H2]. unfold bytes_decode in X. cbn in X.
      unfold usize_sub in X. replace (off <=? length (bx_ref BX b)) with true in X by lia.
      set (size := Nat.min (length buf) (length (bx_ref BX b) - off)) in *.
      assert (PL : length (bx_ref BX (bx_put BX b (overwrite (bx_ref BX b) off (firstn size buf))))
                   = length (bx_ref BX b)).
      { apply put_length. rewrite firstn_length. lia. }
      set (b' := bx_put BX b _) in *. clearbody b'.
      destruct (_ && _); inj X; cbn; unfold len in *; rewrite ?PL; auto; try lia.
    - intros t [[b|] off] s' r H X; cbn in *; unfold bytes_finish, bytes_dec_exact in X; cbn in X.
      + destruct H as [H1 H2]. destruct (_ =? 0) eqn:E; inj X; cbn; auto.
      + inj X. exact I.
    - intros t [[b|] off] H; cbn in *; [|lia]. unfold usize_sub.
      replace (off <=? length (bx_ref BX b)) with true by lia. unfold len in *. lia.
    - intros s [->|(b & L & ->)]; cbn; auto. lia.
  Qed.
End CopyS.

Lemma rest_dsafe : dec_safe rem_decoder phys 0 true (fun _ => True) (fun _ _ => False)
      (fun s => s = rem_dec_new).
Proof.
  exists (fun t s => (len (rm_buf s) <= t)%N). split; [constructor|]; auto; try (intros; tauto).
  - cbv; discriminate.
  - intros; lia.
  - intros t [b eos] fuel buf e s' r H L EF X. cbn in *. unfold rem_decode in X. cbn in X.
    destruct eos.
    { inj X. cbn. lia. }
    assert (LA : len (b ++ buf) = (len b + len buf)%N) by (unfold len; rewrite app_length; lia).
    destruct e as [m| |]; cbn in X, EF.
    + replace (len b + (len buf + m) <=? isize_max)%N with true in X
        by (unfold phys, isize_max in *; lia).
      inj X. cbn. rewrite LA. unfold len. split; [lia|]. split; [unfold len in *; lia|congruence].
    + inj X. cbn. rewrite LA. unfold len. split; [lia|]. split; [unfold len in *; lia|congruence].
    + inj X. cbn. rewrite LA. unfold len. split; [lia|]. split; [unfold len in *; lia|congruence].
  - intros t [b eos] s' r H X. cbn in *. unfold rem_finish in X. cbn in X. destruct eos; inj X; cbn; auto.
    split; auto. split; auto. lia.
  - intros t [b []] H; cbn; lia.
  - intros s ->. cbn. lia.
Qed.
Lemma null_dsafe : dec_safe null_decoder u64_max 0 true (fun _ => True) (fun _ _ => False) (fun _ => True).
Proof.
  exists (fun _ _ => True). split; [constructor|]; auto; try (intros; tauto).
  - cbv; discriminate.
  - intros t [] fuel buf e s' r _ _ _ X. cbn in X. inj X. split; auto. lia.
  - intros t [] s' r _ X. cbn in *. inj X. auto.
  - intros; cbn; lia.
Qed.
Lemma pad_dsafe : dec_safe pad_decoder u64_max 0 true (fun _ => True)
      (fun s s' => exists b, s' = pad_dec_set s b) (fun s => exists b, s = pad_dec_new b).
Proof.
  exists (fun _ _ => True). split; [constructor|]; auto.
  - cbv; discriminate.
  - intros t [x eos] fuel buf e s' r _ _ _ X. cbn in X. unfold pad_decode in X; cbn in X.
    destruct eos; [inj X; split; [lia|]; auto|].
    destruct x; [destruct (forallb _ _)|]; inj X; cbn; auto; repeat split; auto; congruence.
  - intros t [x eos] s' r _ X. cbn in *. destruct eos; inj X; auto.
  - intros t [x []] _; cbn; auto. lia.
Qed.
Lemma mono_dsafe : forall I (f : MonoDecode I),
  dec_safe (mono_decoder f) u64_max 0 false (fun _ => True) (fun _ _ => False)
      (fun s => s = mono_dec_new).
Proof.
  intros I f. exists (fun _ _ => True). split; [constructor|]; auto.
  - cbv; discriminate.
  - intros t [x b] fuel buf e s' r _ _ _ X. cbn in X. unfold mono_decode in X; cbn in X.
    destruct (is_reached e).
    + destruct (f _) as [[i|k] n]; inj X; auto. split; [lia|]. split; auto. congruence.
    + inj X. split; auto. split; auto. congruence.
  - intros t [x b] s' r _ X. cbn in *. destruct x; inj X; auto.
  - intros t [[x|] b] _; cbn; auto. lia.
Qed.

(** ** Decoders that change only the result of [finish_decoding] *)
Lemma finish_dsafe : forall S I T (D : Decoder S I) (D' : Decoder S T) M B q Item (Item' : T -> Prop)
    Conf (Init : S -> Prop),
  dec_safe D M B q Item Conf Init ->
  (forall fuel s buf e, dec_decode D' fuel s buf e = dec_decode D fuel s buf e) ->
  (forall s, dec_req D' s = dec_req D s) -> (forall s, dec_idle D' s = dec_idle D s) ->
  (forall s, fst (dec_finish D' s) = fst (dec_finish D s) /\
    match snd (dec_finish D s) with
    | Ok i => match snd (dec_finish D' s) with
              | Ok t => Item i -> Item' t | Err _ => True | _ => False end
    | Err _ => exists k, snd (dec_finish D' s) = Err k
    | _ => True
    end) ->
  dec_safe D' M B q Item' Conf Init.
Proof.
  intros S I T D D' M B q Item Item' Conf Init (Inv & DS & IN) HD HR HI HF.
  exists Inv. split; auto. constructor; try apply DS.
  - intros t s fuel buf e s' r H L E X. rewrite HD in X. rewrite HI. exact (ds_decode DS H L E X).
  - intros t s s' r H X. destruct (HF s) as [F1 F2]. rewrite X in F1, F2. cbn in F1, F2.
    destruct (dec_finish D s) as [s1 x] eqn:Y. cbn in *. subst s'.
    pose proof (ds_finish DS H Y) as A. rewrite HI. destruct x as [i|k| |]; try contradiction.
    + destruct r; try contradiction; tauto.
    + destruct F2 as (k' & ->). exact A.
  - intros t s H. rewrite HR. exact (ds_req DS H).
Qed.
Lemma map_dsafe : forall S I T (D : Decoder S I) (f : I -> T) M B q Item Conf Init,
  dec_safe D M B q Item Conf Init ->
  dec_safe (map_decoder D f) M B q (fun t => exists i, Item i /\ t = f i) Conf Init.
Proof.
  intros. eapply finish_dsafe; eauto. intros s. cbn. destruct (dec_finish D s) as [s1 [i|k| |]]; cbn; eauto.
Qed.
Lemma try_map_dsafe : forall S I T (D : Decoder S I) (f : I -> T + ErrorKind) M B q Item Conf Init,
  dec_safe D M B q Item Conf Init ->
  dec_safe (try_map_decoder D f) M B q (fun t => exists i, Item i /\ f i = inl t) Conf Init.
Proof.
  intros. eapply finish_dsafe; eauto. intros s. cbn. destruct (dec_finish D s) as [s1 [i|k| |]]; cbn; eauto.
  split; auto. destruct (f i) eqn:E; eauto.
Qed.
Lemma utf8_dsafe : forall S (D : Decoder S (list byte)) M B q Item Conf Init,
  dec_safe D M B q Item Conf Init ->
  dec_safe (utf8_decoder D) M B q (fun _ => True) Conf Init.
Proof.
  intros. eapply finish_dsafe; eauto. intros s. cbn. destruct (dec_finish D s) as [s1 [i|k| |]]; cbn; eauto.
  split; auto. destruct (str_from_utf8 i); auto.
Qed.
Lemma weaken_dsafe : forall S I (D : Decoder S I) M M' B B' q q' (Item Item' : I -> Prop) Conf
    (Conf' : S -> S -> Prop) Init (Init' : S -> Prop),
    dec_safe D M B q Item Conf Init ->
    (M' <= M)%N -> (B <= B')%N -> (q' = true -> q = true) -> (forall i, Item i -> Item' i) ->
    (forall s s', Conf' s s' -> Conf s s') -> (forall s, Init' s -> Init s) ->
    dec_safe D M' B' q' Item' Conf' Init'.
Proof.
  intros S I D M M' B B' q q' Item Item' Conf Conf' Init Init' (Inv & DS & IN) HM HB HQ HI HC HN.
  exists Inv. split; auto. constructor.
  - pose proof (ds_M DS). lia.
  - apply DS.
  - intros. eapply (ds_conf DS); eauto.
  - intros t s fuel buf e s' r H L EF X.
    pose proof (ds_decode DS H L (eos_fits_le _ _ HM EF) X) as A. destruct r; try contradiction; auto.
    destruct A as (A1 & A2 & A3). auto.
  - intros t s s' r H X. pose proof (ds_finish DS H X) as A. destruct r; try contradiction; auto.
    destruct A as (A1 & A2 & A3). auto.
  - intros t s H. pose proof (ds_req DS H) as A. destruct (dec_req D s) as [[n| |]| | |]; try contradiction; auto. lia.
Qed.
Lemma num_dsafe : forall T (item : list byte -> T) width,
  dec_safe (num_decoder item) u64_max (N.of_nat width) true
      (fun t => exists w, length w = width /\ t = item w) (fun _ _ => False)
      (fun s => s = num_dec_new width).
Proof.
  intros T item width.
  pose proof (copy_dsafe vec_box_ok (repeat x00 width)) as H.
  assert (H' : dec_safe (copy_decoder vec_box) u64_max (N.of_nat width) true
    (fun b => length b = width) (fun _ _ => False) (fun s => s = num_dec_new width)).
  { eapply weaken_dsafe; [exact H|..]; auto; cbn; unfold len; rewrite ?repeat_length; auto; lia. }
  eapply finish_dsafe; [exact H'|..]; auto. intros s. cbn.
  destruct (copy_finish vec_box s) as [s1 [i|k| |]]; cbn; eauto.
Qed.
Lemma map_err_dsafe : forall S I (D : Decoder S I) f M B q Item Conf Init,
  dec_safe D M B q Item Conf Init -> dec_safe (map_err_decoder D f) M B q Item Conf Init.
Proof.
  intros S I D f M B q Item Conf Init (Inv & DS & IN). exists Inv. split; auto. constructor; try apply DS.
  - intros t s fuel buf e s' r H L E X. cbn in X. destruct (dec_decode D fuel s buf e) as [s1 x] eqn:Y.
    inj X. pose proof (ds_decode DS H L E Y) as A. destruct x; exact A.
  - intros t s s' r H X. cbn in X. destruct (dec_finish D s) as [s1 x] eqn:Y.
    inj X. pose proof (ds_finish DS H Y) as A. destruct x; exact A.
Qed.

(** ** [bytecodec_try_decode!] *)
Lemma try_dsafe : forall S I (D : Decoder S I) M B q Item Conf Inv t s fuel off buf e,
  dsafe D M B q Item Conf Inv -> Inv t s -> off <= length buf ->
  (t + len (skipn off buf) <= phys)%N -> eos_fits M buf e ->
  match try_decode D fuel s off buf e with
  | TGo s' off' => off <= off' <= length buf /\ Inv (t + N.of_nat (off' - off))%N s' /\
                   dec_idle D s' = true /\ (dec_idle D s = true -> off' = off)
  | TRet s' (Ok n) => off <= n <= length buf /\ Inv (t + N.of_nat (n - off))%N s' /\
                      dec_idle D s' = false /\ dec_idle D s = false
  | TRet s' (Err _) => Inv (t + len (skipn off buf))%N s' /\ dec_idle D s = false
  | TRet _ Panic => False
  | TRet _ OutOfFuel => True
  end.
Proof.
  intros S I D M B q Item Conf Inv t s fuel off buf e DS H LO L EF. unfold try_decode.
  destruct (dec_idle D s) eqn:id.
  { split; [lia|]. replace (off - off) with 0 by lia. rewrite N.add_0_r. auto. }
  rewrite slice_from_some by auto.
  destruct (dec_decode D fuel s (skipn off buf) e) as [s' r] eqn:X.
  pose proof (ds_decode DS H L (eos_fits_skip _ _ _ _ EF) X) as A.
  destruct r as [n|k| |]; auto. destruct A as (A1 & A2 & _). rewrite skipn_length in A1.
  destruct (dec_idle D s') eqn:id'; (split; [lia|]); replace (off + n - off) with n by lia;
    repeat split; auto; congruence.
Qed.

(** ** and_then *)
Lemma and_then_dsafe : forall S0 S1 I0 I1 (D0 : Decoder S0 I0) (D1 : Decoder S1 I1) (f : I0 -> S1)
    M B q0 q1 (Item0 : I0 -> Prop) Item1 Conf0 Conf1 Init0 (Init1 : S1 -> Prop),
    dec_safe D0 M B q0 Item0 Conf0 Init0 -> dec_safe D1 M B q1 Item1 Conf1 Init1 ->
    (forall i, Item0 i -> Init1 (f i)) ->
    dec_safe (and_then_decoder D0 D1 f) M B true Item1
      (fun st st' =>
         (Conf0 (at_inner0 st) (at_inner0 st') /\ at_inner1 st' = at_inner1 st) \/
         (at_inner0 st' = at_inner0 st /\
          exists s1 s1', at_inner1 st = Some s1 /\ at_inner1 st' = Some s1' /\ Conf1 s1 s1'))
      (fun st => Init0 (at_inner0 st) /\ at_inner1 st = None).
Proof.
  intros S0 S1 I0 I1 D0 D1 f M B q0 q1 Item0 Item1 Conf0 Conf1 Init0 Init1
    (Inv0 & DS0 & IN0) (Inv1 & DS1 & IN1) HF.
  assert (Z1 : forall i t, Item0 i -> Inv1 t (f i)).
  { intros i t H. apply (ds_mono DS1 (t := 0%N)); [lia|auto]. }
  set (Inv := fun t (st : AndThen S0 S1) => Inv0 t (at_inner0 st) /\
     match at_inner1 st with Some s1 => Inv1 t s1 | None => True end).
  assert (Z : forall t s0 s1 fuel off buf e s' r, Inv0 t s0 -> Inv1 t s1 -> off <= length buf ->
    (t + len (skipn off buf) <= phys)%N -> eos_fits M buf e ->
    and_then_body D1 fuel s0 s1 off buf e = (s', r) ->
    match r with
    | Ok n => off <= n <= length buf /\ Inv (t + N.of_nat (n - off))%N s' /\ (dec_idle D1 s1 = true -> n = off)
    | Err _ => Inv (t + len (skipn off buf))%N s'
    | Panic => False
    | OutOfFuel => True
    end).
  { intros t s0 s1 fuel off buf e s' r H0 H1 LO L EF X. unfold and_then_body in X.
    pose proof (@try_dsafe _ _ _ _ _ _ _ _ _ _ _ fuel off buf e DS1 H1 LO L EF) as A.
    destruct (try_decode D1 fuel s1 off buf e) as [s1' off'|s1' r'].
    - inj X. destruct A as (A1 & A2 & A3 & A4). split; auto. split; auto.
      split; cbn; auto. eapply (ds_mono DS0); [|exact H0]. lia.
    - inj X. destruct r' as [n|k| |]; auto.
      + destruct A as (A1 & A2 & A3 & A4). split; auto. split; [|congruence]. split; cbn; auto.
        eapply (ds_mono DS0); [|exact H0]. lia.
      + destruct A as (A1 & A2). split; cbn; auto. eapply (ds_mono DS0); [|exact H0]. lia. }
  exists Inv. split; [constructor|].
  - apply DS0.
  - intros t t' [s0 [s1|]] L [H0 H1]; cbn in *; split; cbn; auto;
      first [eapply (ds_mono DS0); eassumption | eapply (ds_mono DS1); eassumption].
  - intros t [s0 o] [s0' o'] [H0 H1] [[C E]|[E (s1 & s1' & E1 & E2 & C)]]; cbn in *; subst; split; cbn; auto;
      first [eapply (ds_conf DS0); eassumption | eapply (ds_conf DS1); eassumption].
  - intros t [s0 o] fuel buf e s' r [H0 H1] L EF X. cbn in *. unfold and_then_decode in X. cbn in X.
    destruct o as [s1|].
    + pose proof (Z t s0 s1 fuel 0 buf e s' r H0 H1 ltac:(lia) ltac:(cbn [skipn]; exact L) EF X) as A.
      destruct r as [n|k| |]; auto. rewrite Nat.sub_0_r in A. destruct A as (A1 & A2 & A3).
      split; [lia|]. split; auto.
    + pose proof (@try_dsafe _ _ _ _ _ _ _ _ _ _ _ fuel 0 buf e DS0 H0 ltac:(lia) ltac:(cbn [skipn]; exact L) EF) as A.
      destruct (try_decode D0 fuel s0 0 buf e) as [s0' off|s0' r'].
      * destruct A as (A1 & A2 & A3 & A4). rewrite Nat.sub_0_r in A2.
        destruct (dec_finish D0 s0') as [s0'' x] eqn:Y.
        pose proof (ds_finish DS0 A2 Y) as F. destruct x as [i0|k| |]; try contradiction.
        { destruct F as (F1 & F2 & _).
          pose proof (len_app_le (n := off) buf ltac:(lia)) as LA.
          pose proof (Z _ s0'' (f i0) fuel off buf e s' r F2 (Z1 _ _ F1) ltac:(lia) ltac:(lia) EF X) as C.
          destruct r as [n|k| |]; auto.
          - destruct C as (C1 & C2 & C3). split; [lia|]. split; [|congruence].
            replace (t + N.of_nat n)%N with (t + N.of_nat off + N.of_nat (n - off))%N by lia. exact C2.
          - replace (t + len buf)%N with (t + N.of_nat off + len (skipn off buf))%N by lia. exact C. }
        { inj X. split; cbn; auto. eapply (ds_mono DS0); [|exact F]. unfold len. lia. }
      * inj X. destruct r' as [n|k| |]; auto.
        { rewrite Nat.sub_0_r in A. destruct A as (A1 & A2 & A3 & A4). split; [lia|].
          split; [split; cbn; auto|congruence]. }
        { destruct A as [A _]. split; cbn; auto. }
  - intros t [s0 o] s' r [H0 H1] X. cbn in *. destruct o as [s1|]; [|inj X; split; auto].
    inj X. destruct (dec_finish D1 s1) as [s1' x] eqn:Y. pose proof (ds_finish DS1 H1 Y) as F. cbn.
    destruct x; try contradiction; [|split; cbn; auto]. split; [tauto|]. split; [split; cbn; auto|tauto].
  - intros t [s0 [s1|]] [H0 H1]; cbn in *; [exact (ds_req DS1 H1)|exact (ds_req DS0 H0)].
  - intros [s0 o] [H E]. cbn in *. subst. split; cbn; auto.
Qed.

(** ** omit, peekable, maybe_eos *)
Lemma omit_dsafe : forall S I (D : Decoder S I) M B q (Item : I -> Prop) Conf Init,
    dec_safe D M B q Item Conf Init ->
    dec_safe (omit_decoder D) M B q (fun o => forall i, o = Some i -> Item i)
      (fun st st' => (exists b, st' = omit_set st b) \/
                     (Conf (om_inner st) (om_inner st') /\ om_omit st' = om_omit st))
      (fun st => Init (om_inner st)).
Proof.
  intros S I D M B q Item Conf Init (Inv & DS & IN).
  exists (fun t st => Inv t (om_inner st)). split; [constructor|]; auto.
  - apply DS.
  - intros. eapply (ds_mono DS); eauto.
  - intros t s s' H [(b & ->)|[C _]]; [exact H|eapply (ds_conf DS); eauto].
  - intros t [s o] fuel buf e s' r H L EF X. cbn in *. destruct o.
    + inj X. cbn. split; [lia|]. rewrite N.add_0_r. auto.
    + destruct (dec_decode D fuel s buf e) as [s1 x] eqn:Y. inj X.
      pose proof (ds_decode DS H L EF Y) as A. destruct x; auto.
  - intros t [s o] s' r H X. cbn in *. destruct o.
    + inj X. split; [discriminate|]. auto.
    + destruct (dec_finish D s) as [s1 x] eqn:Y. inj X. pose proof (ds_finish DS H Y) as A.
      destruct x; try contradiction; cbn; auto. destruct A as (A1 & A2 & A3).
      split; [intros ? [= <-]; auto|]. auto.
  - intros t [s []] H; cbn in *; [lia|exact (ds_req DS H)].
Qed.
Lemma peek_dsafe : forall S I (D : Decoder S I) M B q (Item : I -> Prop) Conf (Init : S -> Prop),
    dec_safe D M B q Item Conf Init ->
    dec_safe (peek_decoder D) M B true Item
      (fun st st' => Conf (pk_inner st) (pk_inner st') /\ pk_item st' = pk_item st)
      (fun st => exists s, Init s /\ st = peek_new s).
Proof.
  intros S I D M B q Item Conf Init (Inv & DS & IN).
  exists (fun t st => Inv t (pk_inner st) /\ forall i, pk_item st = Some i -> Item i).
  split; [constructor|].
  - apply DS.
  - intros t t' s L [H1 H2]. split; auto. eapply (ds_mono DS); eauto.
  - intros t s s' [H1 H2] [C E]. rewrite E. split; auto. eapply (ds_conf DS); eauto.
  - intros t [s o] fuel buf e s' r [H1 H2] L EF X. cbn in *. unfold peek_decode in X; cbn in X.
    destruct o as [i|].
    + inj X. cbn. split; [lia|]. rewrite N.add_0_r. auto.
    + destruct (dec_decode D fuel s buf e) as [s1 x] eqn:Y.
      pose proof (ds_decode DS H1 L EF Y) as A. destruct x as [n|k| |]; try contradiction.
      * destruct A as (A1 & A2 & _). destruct (dec_idle D s1) eqn:id.
        { destruct (dec_finish D s1) as [s2 x] eqn:F. pose proof (ds_finish DS A2 F) as C.
          destruct x as [i|k| |]; try contradiction; inj X; cbn.
          - split; auto. split; [|congruence]. split; [tauto|]. intros ? [= <-]. tauto.
          - split; [|discriminate]. eapply (ds_mono DS); [|exact C]. unfold len. lia. }
        { inj X. cbn. split; auto. split; [|congruence]. split; [auto|discriminate]. }
      * inj X. split; [exact A|discriminate].
      * inj X. exact A.
  - intros t [s o] s' r [H1 H2] X. cbn in *. destruct o; inj X; cbn; auto.
    split; auto. split; auto. split; [auto|discriminate].
  - intros t [s [i|]] [H _]; cbn in *; [lia|exact (ds_req DS H)].
  - intros st (s & H & ->). cbn. split; auto. discriminate.
Qed.
Lemma maybe_dsafe : forall S I (D : Decoder S I) M B q (Item : I -> Prop) Conf (Init : S -> Prop),
    dec_safe D M B q Item Conf Init ->
    dec_safe (maybe_decoder D) M B q Item
      (fun st st' => Conf (my_inner st) (my_inner st') /\ my_started st' = my_started st)
      (fun st => exists s, Init s /\ st = maybe_new s).
Proof.
  intros S I D M B q Item Conf Init (Inv & DS & IN).
  exists (fun t st => Inv t (my_inner st)). split; [constructor|].
  - apply DS.
  - intros. eapply (ds_mono DS); eauto.
  - intros t s s' H [C _]. eapply (ds_conf DS); eauto.
  - intros t [s o] fuel buf e s' r H L EF X. cbn in *. unfold maybe_decode in X; cbn in X.
    set (e' := if _ : bool then _ else _) in X.
    assert (EF' : eos_fits M buf e') by (unfold e'; destruct (_ && _); [exact Logic.I|exact EF]).
    destruct (dec_decode D fuel s buf e') as [s1 x] eqn:Y.
    pose proof (ds_decode DS H L EF' Y) as A. destruct x as [n|k| |]; inj X; auto.
  - intros t [s o] s' r H X. cbn in *. destruct (dec_finish D s) as [s1 x] eqn:Y. inj X.
    pose proof (ds_finish DS H Y) as A. destruct x; auto.
  - intros t [s o] H. exact (ds_req DS H).
  - intros st (s & H & ->). cbn. auto.
Qed.

(** ** collect, collectn *)
Lemma collect_dsafe : forall S I (D : Decoder S I) M B q (Item : I -> Prop) Conf (Init : S -> Prop),
    dec_safe D M B q Item Conf Init ->
    dec_safe (collect_decoder D) M B true (Forall Item)
      (fun st st' => Conf (cl_inner st) (cl_inner st') /\ cl_items st' = cl_items st /\
                     cl_eos st' = cl_eos st)
      (fun st => exists s, Init s /\ st = collect_new s).
Proof.
  intros S I D M B q Item Conf Init (Inv & DS & IN).
  assert (LP : forall n fuel t s items off buf e s' r, Inv t s -> Forall Item items ->
    off <= length buf -> (t + len (skipn off buf) <= phys)%N -> eos_fits M buf e ->
    collect_loop D n fuel s items off buf e = (s', r) ->
    match r with
    | Ok m => off <= m <= length buf /\ Inv (t + N.of_nat (m - off))%N (cl_inner s') /\ Forall Item (cl_items s')
    | Err _ => Inv (t + len (skipn off buf))%N (cl_inner s') /\ Forall Item (cl_items s')
    | Panic => False
    | OutOfFuel => True
    end).
  { induction n as [|n IH]; intros fuel t s items off buf e s' r H HI LO L EF X; cbn [collect_loop] in X.
    - destruct (off <? length buf); inj X; auto. cbn.
      rewrite Nat.sub_diag, N.add_0_r. auto with arith.
    - destruct (off <? length buf) eqn:LT; [|inj X; cbn; rewrite Nat.sub_diag, N.add_0_r; auto with arith].
      pose proof (@try_dsafe _ _ _ _ _ _ _ _ _ _ _ fuel off buf e DS H LO L EF) as A.
      destruct (try_decode D fuel s off buf e) as [s1 off1|s1 x].
      + destruct A as (A1 & A2 & _). destruct (dec_finish D s1) as [s2 x] eqn:Y.
        pose proof (ds_finish DS A2 Y) as F. destruct x as [i|k| |]; try contradiction.
        * destruct F as (F1 & F2 & _).
          pose proof (len_app_le (n := off1) buf ltac:(lia)) as LA1.
          pose proof (len_app_le (n := off) buf ltac:(lia)) as LA.
          assert (C := IH fuel _ s2 (items ++ [i]) off1 buf e s' r F2
            ltac:(apply Forall_app; auto) ltac:(lia) ltac:(lia) EF X).
          destruct r as [m|k| |]; auto.
          -- destruct C as (C1 & C2 & C3). split; [lia|]. split; auto.
             replace (t + N.of_nat (m - off))%N with (t + N.of_nat (off1 - off) + N.of_nat (m - off1))%N by lia. auto.
          -- replace (t + len (skipn off buf))%N with (t + N.of_nat (off1 - off) + len (skipn off1 buf))%N by lia. auto.
        * inj X. cbn. split; auto. eapply (ds_mono DS); [|exact F].
          pose proof (len_app_le (n := off) buf ltac:(lia)) as LA. unfold len in *. lia.
      + inj X. destruct x as [m|k| |]; auto; cbn.
        * destruct A as (A1 & A2 & _). split; [lia|]. auto.
        * destruct A; auto. }
  exists (fun t st => Inv t (cl_inner st) /\ Forall Item (cl_items st)). split; [constructor|].
  - apply DS.
  - intros t t' s L [H1 H2]. split; auto. eapply (ds_mono DS); eauto.
  - intros t s s' [H1 H2] (C & -> & _). split; auto. eapply (ds_conf DS); eauto.
  - intros t [s items eos] fuel buf e s' r [H1 H2] L EF X. cbn in *. destruct eos.
    + inj X. cbn. split; [lia|]. rewrite N.add_0_r. auto.
    + pose proof (LP fuel fuel t s items 0 buf e s' r H1 H2 ltac:(lia) ltac:(cbn [skipn]; exact L) EF X) as A.
      destruct r as [m|k| |]; auto. rewrite Nat.sub_0_r in A. destruct A as (A1 & A2 & A3).
      split; [lia|]. split; auto. congruence.
  - intros t [s items eos] s' r [H1 H2] X. cbn in *. destruct eos; inj X; cbn; auto.
  - intros t [s items []] [H1 H2]; cbn in *; [lia|exact (ds_req DS H1)].
  - intros st (s & H & ->). cbn. auto.
Qed.
Lemma collectn_dsafe : forall S I (D : Decoder S I) M B q (Item : I -> Prop) Conf (Init : S -> Prop),
    dec_safe D M B q Item Conf Init ->
    dec_safe (collectn_decoder D) M B true (Forall Item)
      (fun st st' => (exists n, st' = collectn_set st n) \/
                     (Conf (cn_inner st) (cn_inner st') /\ cn_remaining st' = cn_remaining st /\
                      cn_items st' = cn_items st))
      (fun st => exists s n, Init s /\ st = collectn_new s n).
Proof.
  intros S I D M B q Item Conf Init (Inv & DS & IN).
  assert (LP : forall n fuel t s items off buf e s' r, Inv t s -> Forall Item items ->
    off <= length buf -> (t + len (skipn off buf) <= phys)%N -> eos_fits M buf e ->
    collectn_loop D fuel n s items off buf e = (s', r) ->
    match r with
    | Ok m => off <= m <= length buf /\ Inv (t + N.of_nat (m - off))%N (cn_inner s') /\ Forall Item (cn_items s') /\
              (n = 0 -> m = off)
    | Err _ => Inv (t + len (skipn off buf))%N (cn_inner s') /\ Forall Item (cn_items s')
    | Panic => False
    | OutOfFuel => True
    end).
  { assert (STOP : forall n t s (items : list I) off buf e s' r, Inv t s -> Forall Item items -> off <= length buf ->
      (mkCollectN s n items, if negb (n =? 0) && is_reached e then Err UnexpectedEos else Ok off) = (s', r) ->
      match r with
      | Ok m => off <= m <= length buf /\ Inv (t + N.of_nat (m - off))%N (cn_inner s') /\ Forall Item (cn_items s') /\
              (n = 0 -> m = off)
      | Err _ => Inv (t + len (skipn off buf))%N (cn_inner s') /\ Forall Item (cn_items s')
      | Panic => False
      | OutOfFuel => True
      end).
    { intros n t s items off buf e s' r H HI LO X. injection X as <- <-. destruct (_ && _); cbn.
      - split; auto. eapply (ds_mono DS); [|exact H]. lia.
      - rewrite Nat.sub_diag, N.add_0_r. auto with arith. }
    induction n as [|n IH]; intros fuel t s items off buf e s' r H HI LO L EF X; cbn [collectn_loop] in X.
    - exact (STOP 0 t s items off buf e s' r H HI LO X).
    - destruct (off <? length buf) eqn:LT; [|exact (STOP (Datatypes.S n) t s items off buf e s' r H HI LO X)].
      pose proof (@try_dsafe _ _ _ _ _ _ _ _ _ _ _ fuel off buf e DS H LO L EF) as A.
      destruct (try_decode D fuel s off buf e) as [s1 off1|s1 x].
      + destruct A as (A1 & A2 & _). destruct (dec_finish D s1) as [s2 x] eqn:Y.
        pose proof (ds_finish DS A2 Y) as F. destruct x as [i|k| |]; try contradiction.
        * destruct F as (F1 & F2 & _).
          pose proof (len_app_le (n := off1) buf ltac:(lia)) as LA1.
          pose proof (len_app_le (n := off) buf ltac:(lia)) as LA.
          assert (C := IH fuel _ s2 (items ++ [i]) off1 buf e s' r F2
            ltac:(apply Forall_app; auto) ltac:(lia) ltac:(lia) EF X).
          destruct r as [m|k| |]; auto.
          -- destruct C as (C1 & C2 & C3 & _). split; [lia|]. split; [|split; [auto|lia]].
             replace (t + N.of_nat (m - off))%N with (t + N.of_nat (off1 - off) + N.of_nat (m - off1))%N by lia. auto.
          -- replace (t + len (skipn off buf))%N with (t + N.of_nat (off1 - off) + len (skipn off1 buf))%N by lia. auto.
        * inj X. cbn. split; auto. eapply (ds_mono DS); [|exact F].
          pose proof (len_app_le (n := off) buf ltac:(lia)) as LA. unfold len in *. lia.
      + inj X. destruct x as [m|k| |]; auto; cbn.
        * destruct A as (A1 & A2 & _). split; [lia|]. split; auto. split; auto. lia.
        * destruct A; auto. }
  exists (fun t st => Inv t (cn_inner st) /\ Forall Item (cn_items st)). split; [constructor|].
  - apply DS.
  - intros t t' s L [H1 H2]. split; auto. eapply (ds_mono DS); eauto.
  - intros t s s' [H1 H2] [(n & ->)|(C & _ & ->)]; [split; auto|]. split; auto. eapply (ds_conf DS); eauto.
  - intros t [s n items] fuel buf e s' r [H1 H2] L EF X. cbn in *.
    pose proof (LP n fuel t s items 0 buf e s' r H1 H2 ltac:(lia) ltac:(cbn [skipn]; exact L) EF X) as A.
    destruct r as [m|k| |]; auto. rewrite Nat.sub_0_r in A. destruct A as (A1 & A2 & A3 & A4).
    split; [lia|]. split; auto. intros _ Z. apply A4. lia.
  - intros t [s n items] s' r [H1 H2] X. cbn in *. destruct (n =? 0); inj X; cbn; auto.
  - intros t [s n items] [H1 H2]; cbn in *. destruct (n =? 0); [lia|exact (ds_req DS H1)].
  - intros st (s & n & H & ->). cbn. auto.
Qed.

(** ** length, max_bytes, slice *)
Lemma length_dsafe : forall S I (D : Decoder S I) M B q (Item : I -> Prop) Conf (Init : S -> Prop),
    dec_safe D M B q Item Conf Init ->
    dec_safe (length_decoder D) u64_max M q Item
      (fun st st' => (exists n, (n <= M)%N /\ st' = fst (length_set_expected st n)) \/
                     (Conf (ln_inner st) (ln_inner st') /\ ln_expected st' = ln_expected st /\
                      ln_remaining st' = ln_remaining st))
      (fun st => exists s n, Init s /\ (n <= M)%N /\ st = length_new s n).
Proof.
  intros S I D M B q Item Conf Init (Inv & DS & IN).
  exists (fun t st => Inv t (ln_inner st) /\ (ln_remaining st <= ln_expected st)%N /\ (ln_expected st <= M)%N).
  split; [constructor|].
  - lia.
  - intros t t' s L (H1 & H2). split; auto. eapply (ds_mono DS); eauto.
  - intros t s s' (H1 & H2 & H3) [(n & LN & ->)|(C & -> & ->)].
    + unfold length_set_expected. destruct (_ =? _)%N; cbn; auto. split; auto. lia.
    + split; auto. eapply (ds_conf DS); eauto.
  - intros t [s ex rm] fuel buf e s' r (H1 & H2 & H3) L EF X. cbn in *. unfold length_decode in X. cbn in X.
    set (limit := N.min (len buf) rm) in *.
    assert (FL : length (firstn (N.to_nat limit) buf) = N.to_nat limit).
    { rewrite firstn_length. unfold len in *. lia. }
    destruct (dec_decode D fuel s (firstn (N.to_nat limit) buf) (eos_with_remaining (Finite (rm - limit)))) as [s1 x] eqn:Y.
    assert (GO : forall s' r,
      match x with
      | Ok size => match u64_sub rm (N.of_nat size) with
                   | Some rem => (mkLength s1 ex rem, Ok size)
                   | None => (mkLength s1 ex rm, Panic) end
      | _ => (mkLength s1 ex rm, x) end = (s', r) ->
      match r with
      | Ok n => n <= length buf /\ (Inv (t + N.of_nat n)%N (ln_inner s') /\
         (ln_remaining s' <= ln_expected s')%N /\ (ln_expected s' <= M)%N) /\
         (q = true -> dec_idle D s = true -> n = 0)
      | Err _ => Inv (t + len buf)%N (ln_inner s') /\ (ln_remaining s' <= ln_expected s')%N /\ (ln_expected s' <= M)%N
      | Panic => False
      | OutOfFuel => True
      end).
    { intros s2 r2 Z.
      assert (LF : len (firstn (N.to_nat limit) buf) = limit) by (unfold len; rewrite FL; lia).
      assert (A := @ds_decode _ _ _ _ _ _ _ _ _ DS t s fuel (firstn (N.to_nat limit) buf)
        (eos_with_remaining (Finite (rm - limit))) s1 x H1
        ltac:(rewrite LF; lia) ltac:(cbn; rewrite LF; lia) Y).
      destruct x as [n|k| |]; try contradiction.
      - destruct A as (A1 & A2 & A3). rewrite FL in A1. unfold u64_sub in Z.
        replace (N.of_nat n <=? rm)%N with true in Z by lia. inj Z. cbn.
        split; [unfold len in *; lia|]. split; auto. split; auto. lia.
      - inj Z. cbn. split; auto. eapply (ds_mono DS); [|exact A]. unfold len. rewrite FL. unfold len in *; lia.
      - inj Z. auto. }
    destruct e as [m| |]; cbn in X, EF.
    + unfold u64_add in X. replace (m + len buf <=? u64_max)%N with true in X by lia.
      destruct (_ <=? _)%N; [exact (GO _ _ X)|]. inj X. cbn. split; auto. eapply (ds_mono DS); [|exact H1]. lia.
    + exact (GO _ _ X).
    + exact (GO _ _ X).
  - intros t [s ex rm] s' r (H1 & H2 & H3) X. cbn in *. destruct (rm =? 0)%N; [|inj X; auto].
    destruct (dec_finish D s) as [s1 x] eqn:Y. inj X. pose proof (ds_finish DS H1 Y) as A.
    destruct x; try contradiction; cbn in *; intuition lia.
  - intros t [s ex rm] (H1 & H2 & H3). cbn in *. lia.
  - intros st (s & n & H & LN & ->). cbn. split; auto. lia.
Qed.
Lemma max_dsafe : forall S I (D : Decoder S I) M B q (Item : I -> Prop) Conf (Init : S -> Prop),
    dec_safe D M B q Item Conf Init ->
    dec_safe (max_decoder D) M B q Item
      (fun st st' => (exists n, (n <= u64_max)%N /\ st' = fst (max_set st n)) \/
                     (Conf (mx_inner st) (mx_inner st') /\ mx_consumed st' = mx_consumed st /\
                      mx_max st' = mx_max st))
      (fun st => exists s n, Init s /\ (n <= u64_max)%N /\ st = max_new s n).
Proof.
  intros S I D M B q Item Conf Init (Inv & DS & IN).
  exists (fun t st => Inv t (mx_inner st) /\ (mx_consumed st <= mx_max st)%N /\ (mx_max st <= u64_max)%N).
  split; [constructor|].
  - apply DS.
  - intros t t' s L (H1 & H2). split; auto. eapply (ds_mono DS); eauto.
  - intros t s s' (H1 & H2 & H3) [(n & LN & ->)|(C & -> & ->)].
    + unfold max_set. destruct (_ <=? n)%N eqn:E; cbn; auto. split; auto. lia.
    + split; auto. eapply (ds_conf DS); eauto.
  - intros t [s c mx] fuel buf e s' r (H1 & H2 & H3) L EF X. cbn in *. unfold max_decode in X.
    assert (CK : max_check (mkMax s c mx) buf e = Err InvalidInput \/
                 (max_check (mkMax s c mx) buf e = Ok tt /\ (c + len buf <= mx)%N)).
    { pose proof (ds_M DS). unfold max_check. cbn. unfold u64_sub, u64_add.
      replace (c <=? mx)%N with true by lia. destruct e as [m| |]; cbn in *; auto.
      - replace (len buf + m <=? u64_max)%N with true by lia.
        destruct (len buf + m <=? mx - c)%N eqn:E; auto. right. split; auto. lia.
      - destruct (len buf <=? mx - c)%N eqn:E; auto. right. split; auto. lia. }
    destruct CK as [CK|[CK LC]]; rewrite CK in X; cbn in X.
    + inj X. cbn. split; auto. eapply (ds_mono DS); [|exact H1]. lia.
    + destruct (dec_decode D fuel s buf e) as [s1 x] eqn:Y. pose proof (ds_decode DS H1 L EF Y) as A.
      destruct x as [n|k| |]; try contradiction.
      * destruct A as (A1 & A2 & A3). unfold u64_add in X.
        assert (N.of_nat n <= len buf)%N by (unfold len; lia).
        replace (c + N.of_nat n <=? u64_max)%N with true in X by lia. inj X. cbn.
        split; auto. split; auto. split; auto. lia.
      * inj X. cbn. auto.
      * inj X. auto.
  - intros t [s c mx] s' r (H1 & H2 & H3) X. cbn in *. destruct (dec_finish D s) as [s1 x] eqn:Y. inj X.
    pose proof (ds_finish DS H1 Y) as A. destruct x; try contradiction; cbn in *; intuition lia.
  - intros t [s c mx] (H1 & _). exact (ds_req DS H1).
  - intros st (s & n & H & LN & ->). cbn. split; auto. lia.
Qed.
Lemma slice_dsafe : forall S I (D : Decoder S I) M B q (Item : I -> Prop) Conf (Init : S -> Prop),
    dec_safe D M B q Item Conf Init ->
    dec_safe (slice_decoder D) M B q Item
      (fun st st' => (exists n, st' = slice_set st n) \/
                     (Conf (sl_inner st) (sl_inner st') /\ sl_consumable st' = sl_consumable st))
      (fun st => exists s, Init s /\ st = slice_new s).
Proof.
  intros S I D M B q Item Conf Init (Inv & DS & IN).
  exists (fun t st => Inv t (sl_inner st)). split; [constructor|].
  - apply DS.
  - intros. eapply (ds_mono DS); eauto.
  - intros t s s' H [(n & ->)|(C & _)]; auto. eapply (ds_conf DS); eauto.
  - intros t [s c] fuel buf e s' r H L EF X. cbn in *. unfold slice_decode in X. cbn in X.
    set (limit := N.min (len buf) c) in *.
    assert (FL : length (firstn (N.to_nat limit) buf) = N.to_nat limit).
    { rewrite firstn_length. unfold len in *. lia. }
    assert (EB : exists e', eos_back e (len buf - limit) = Some e' /\ eos_fits M (firstn (N.to_nat limit) buf) e').
    { pose proof (ds_M DS). destruct e as [m| |]; cbn in *; eauto. unfold u64_add.
      replace (m + (len buf - limit) <=? u64_max)%N with true by lia. eexists; split; [reflexivity|].
      cbn. unfold len at 1. rewrite FL. lia. }
    destruct EB as (e' & EB & EF'). rewrite EB in X.
    destruct (dec_decode D fuel s (firstn (N.to_nat limit) buf) e') as [s1 x] eqn:Y.
    pose proof (ds_decode DS H ltac:(unfold len at 1; rewrite FL; lia) EF' Y) as A.
    destruct x as [n|k| |]; try contradiction.
    + destruct A as (A1 & A2 & A3). rewrite FL in A1. unfold u64_sub in X.
      replace (N.of_nat n <=? c)%N with true in X by lia. inj X. cbn. split; [unfold len in *; lia|]. auto.
    + inj X. cbn. eapply (ds_mono DS); [|exact A]. unfold len at 1. rewrite FL. lia.
    + inj X. auto.
  - intros t [s c] s' r H X. cbn in *. destruct (dec_finish D s) as [s1 x] eqn:Y. inj X.
    pose proof (ds_finish DS H Y) as A. destruct x; auto.
  - intros t [s c] H. exact (ds_req DS H).
  - intros st (s & H & ->). cbn. auto.
Qed.

(** ** Tuples *)
Lemma pair_dsafe : forall S0 S1 I0 I1 (D0 : Decoder S0 I0) (D1 : Decoder S1 I1)
    M B0 B1 q0 q1 (Item0 : I0 -> Prop) (Item1 : I1 -> Prop) Conf0 Conf1 Init0 Init1,
    dec_safe D0 M B0 q0 Item0 Conf0 Init0 -> dec_safe D1 M B1 q1 Item1 Conf1 Init1 ->
    (B0 + B1 <= u64_max)%N ->
    dec_safe (tuple2_decoder D0 D1) M (B0 + B1) true
      (fun i => Item0 (fst i) /\ Item1 (snd i))
      (fun s s' => (Conf0 (fst s) (fst s') /\ snd s' = snd s) \/
                   (fst s' = fst s /\ Conf1 (snd s) (snd s')))
      (fun s => Init0 (fst s) /\ Init1 (snd s)).
Proof.
  intros S0 S1 I0 I1 D0 D1 M B0 B1 q0 q1 Item0 Item1 Conf0 Conf1 Init0 Init1
    (Inv0 & DS0 & IN0) (Inv1 & DS1 & IN1) HB.
  exists (fun t s => Inv0 t (fst s) /\ Inv1 t (snd s)). split; [constructor|].
  - apply DS0.
  - intros t t' s L [H0 H1]. split; [eapply (ds_mono DS0); eauto|eapply (ds_mono DS1); eauto].
  - intros t [s0 s1] [s0' s1'] [H0 H1] [[C E]|[E C]]; cbn in *; subst; split; auto;
      [eapply (ds_conf DS0); eauto|eapply (ds_conf DS1); eauto].
  - intros t [s0 s1] fuel buf e s' r [H0 H1] L EF X. cbn in *.
    pose proof (@try_dsafe _ _ _ _ _ _ _ _ _ _ _ fuel 0 buf e DS0 H0 ltac:(lia) ltac:(cbn [skipn]; exact L) EF) as A.
    destruct (try_decode D0 fuel s0 0 buf e) as [s0' off|s0' x].
    + destruct A as (A1 & A2 & A3 & A4). rewrite Nat.sub_0_r in A2.
      pose proof (len_app_le (n := off) buf ltac:(lia)) as LA.
      assert (H1' : Inv1 (t + N.of_nat off)%N s1) by (eapply (ds_mono DS1); [|exact H1]; lia).
      pose proof (@try_dsafe _ _ _ _ _ _ _ _ _ _ _ fuel off buf e DS1 H1' ltac:(lia) ltac:(lia) EF) as C.
      destruct (try_decode D1 fuel s1 off buf e) as [s1' off1|s1' x].
      * inj X. destruct C as (C1 & C2 & C3 & C4). cbn. split; [lia|]. split.
        -- split; [eapply (ds_mono DS0); [|exact A2]; lia|].
           replace (t + N.of_nat off1)%N with (t + N.of_nat off + N.of_nat (off1 - off))%N by lia. auto.
        -- intros _ id. apply andb_prop in id. destruct id as [i0 i1]. rewrite (C4 i1), (A4 i0). reflexivity.
      * inj X. destruct x as [n|k| |]; auto; cbn.
        -- destruct C as (C1 & C2 & C3 & C4). split; [lia|]. split.
           ++ split; [eapply (ds_mono DS0); [|exact A2]; lia|].
              replace (t + N.of_nat n)%N with (t + N.of_nat off + N.of_nat (n - off))%N by lia. auto.
           ++ intros _ id. apply andb_prop in id. destruct id; congruence.
        -- destruct C as (C & _). split; [eapply (ds_mono DS0); [|exact A2]; lia|].
           replace (t + len buf)%N with (t + N.of_nat off + len (skipn off buf))%N by lia. auto.
    + inj X. destruct x as [n|k| |]; auto; cbn.
      * destruct A as (A1 & A2 & A3 & A4). rewrite Nat.sub_0_r in A2. split; [lia|]. split.
        -- split; auto. eapply (ds_mono DS1); [|exact H1]; lia.
        -- intros _ id. apply andb_prop in id. destruct id; congruence.
      * destruct A as (A & _). split; auto. eapply (ds_mono DS1); [|exact H1]; lia.
  - intros t [s0 s1] s' r [H0 H1] X. cbn in *.
    destruct (dec_finish D0 s0) as [s0' x] eqn:Y. pose proof (ds_finish DS0 H0 Y) as F.
    destruct x as [i0|k| |]; try contradiction; [|inj X; cbn; auto].
    destruct (dec_finish D1 s1) as [s1' x] eqn:Z. pose proof (ds_finish DS1 H1 Z) as G.
    destruct F as (F1 & F2 & F3). inj X.
    destruct x as [i1|k| |]; try contradiction; cbn; auto.
    destruct G as (G1 & G2 & G3). rewrite F3, G3. auto.
  - intros t [s0 s1] [H0 H1]. pose proof (ds_req DS0 H0) as A. pose proof (ds_req DS1 H1) as C. cbn in *.
    destruct (dec_req D0 s0) as [[a| |]| | |]; try contradiction;
    destruct (dec_req D1 s1) as [[b| |]| | |]; try contradiction; cbn [rbind add_for_decoding opt_finite];
      unfold u64_add; rewrite ?N.add_0_l;
      try (replace (a <=? u64_max)%N with true by lia); cbn [rbind add_for_decoding opt_finite]; unfold u64_add;
      try (replace (a + b <=? u64_max)%N with true by lia); cbn; auto; try lia.
    + destruct (a =? 0)%N; auto. lia.
    + destruct (b =? 0)%N; auto. lia.
  - intros [s0 s1] [H0 H1]. cbn in *. auto.
Qed.
Lemma sim_dsafe : forall S I (D D' : Decoder S I) M B q (Item : I -> Prop) Conf Init,
  dec_sim D D' -> dec_safe D M B q Item Conf Init -> dec_safe D' M B q Item Conf Init.
Proof.
  intros S I D D' M B q Item Conf Init (E1 & E2 & E3 & E4) (Inv & DS & IN).
  exists Inv. split; auto. constructor; try apply DS.
  - intros t s fuel buf e s' r H L EF X. rewrite <- E1 in X. rewrite <- E4. exact (ds_decode DS H L EF X).
  - intros t s s' r H X. rewrite <- E2 in X. rewrite <- E4. exact (ds_finish DS H X).
  - intros t s H. pose proof (ds_req DS H) as A. destruct (dec_req D s) as [qq| | |] eqn:R; try contradiction.
    rewrite (E3 _ _ R). exact A.
Qed.

(** ** Every composition *)
Theorem composed_safe : forall S I (D : Decoder S I) M B q Item Conf Init,
  composed D M B q Item Conf Init -> dec_safe D M B q Item Conf Init.
Proof.
  induction 1.
  - eapply weaken_dsafe; eauto.
  - assumption.
  - now apply copy_dsafe.
  - now apply bytes_dsafe.
  - apply rest_dsafe.
  - apply null_dsafe.
  - apply pad_dsafe.
  - apply mono_dsafe.
  - apply num_dsafe.
  - eapply utf8_dsafe; eauto.
  - now apply map_dsafe.
  - now apply try_map_dsafe.
  - now apply map_err_dsafe.
  - eapply and_then_dsafe; eauto.
  - now apply omit_dsafe.
  - eapply collect_dsafe; eauto.
  - eapply collectn_dsafe; eauto.
  - eapply length_dsafe; eauto.
  - now apply max_dsafe.
  - now apply slice_dsafe.
  - eapply peek_dsafe; eauto.
  - now apply maybe_dsafe.
  - eapply pair_dsafe; eauto.
  - eapply sim_dsafe; [apply tuple_snoc_eq; assumption|]. eapply pair_dsafe; eauto.
Qed.
Lemma calls_inv : forall S I (D : Decoder S I) M B q Item Conf Inv s0 t s,
  dsafe D M B q Item Conf Inv -> Inv 0%N s0 -> calls D M Conf s0 t s -> Inv t s.
Proof.
  intros S I D M B q Item Conf Inv s0 t s DS H0 C. induction C; auto.
  - pose proof (ds_decode DS IHC H H1 H2) as A. destruct r; try congruence; auto.
    destruct A as (A1 & A2 & _). eapply (ds_mono DS); [|exact A2]. unfold len. lia.
  - pose proof (ds_finish DS IHC H) as A. destruct r; try congruence; tauto.
  - eapply (ds_conf DS); eauto.
Qed.
