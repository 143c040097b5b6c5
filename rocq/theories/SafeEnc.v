(** * Safety of every composition of encoders: proofs. *)
From Coq Require Import Lia ZifyBool ZifyNat ZifyN.
From Verif Require Export SafeProofs.
Set Implicit Arguments.

(** Bytes after the reported ones are left as they were. *)
Definition kept (n : nat) (buf buf' : list byte) : Prop :=
  length buf' = length buf /\ skipn n buf' = skipn n buf.

Ltac inj3 H := injection H as <- <- <-.

Lemma skipn_overwrite : forall n (buf src : list byte), length src = n -> n <= length buf ->
  skipn n (overwrite buf 0 src) = skipn n buf.
Proof.
  intros n buf src <- L. unfold overwrite. cbn [firstn app]. rewrite Nat.add_0_l.
  rewrite skipn_app, Nat.sub_diag, skipn_all2 by lia. reflexivity.
Qed.
(** Writing into a part of the buffer. *)
Lemma splice_length : forall off (buf b' : list byte), off <= length buf ->
  length b' = length (skipn off buf) -> length (firstn off buf ++ b') = length buf.
Proof. intros. rewrite app_length, firstn_length, H0, skipn_length. lia. Qed.
Lemma splice_skip : forall off n (buf b' : list byte), off <= length buf ->
  skipn n b' = skipn n (skipn off buf) ->
  skipn (off + n) (firstn off buf ++ b') = skipn (off + n) buf.
Proof.
  intros off n buf b' L H. rewrite skipn_app, firstn_length.
  rewrite skipn_all2 by (rewrite firstn_length; lia).
  replace (off + n - Nat.min off (length buf)) with n by lia. cbn [app]. rewrite H.
  rewrite skipn_skipn. f_equal. lia.
Qed.
Lemma prefix_skip : forall lim n (buf b' : list byte), lim <= length buf -> n <= lim ->
  length b' = lim -> skipn n b' = skipn n (firstn lim buf) ->
  length (b' ++ skipn lim buf) = length buf /\ skipn n (b' ++ skipn lim buf) = skipn n buf.
Proof.
  intros lim n buf b' L LN LB H. split.
  - rewrite app_length, skipn_length. lia.
  - rewrite skipn_app, H. replace (n - length b') with 0 by lia. cbn [skipn].
    rewrite <- (firstn_skipn lim buf) at 3. rewrite skipn_app, firstn_length.
    replace (n - Nat.min lim (length buf)) with 0 by lia. reflexivity.
Qed.
(** Further writing keeps what was kept. *)
Lemma keep_more : forall n m (a b c : list byte), n <= m ->
  skipn n b = skipn n a -> skipn m c = skipn m b -> skipn m c = skipn m a.
Proof.
  intros n m a b c L H1 H2. rewrite H2. replace m with ((m - n) + n) by lia.
  rewrite <- !skipn_skipn. now rewrite H1.
Qed.

(** ** Primitives *)
Lemma bytes_enc_step : forall B (BX : ByteBox B) mx s buf e s' buf' r,
  match be_bytes s with
  | None => True
  | Some b => be_off s <= length (bx_ref BX b) /\ (len (bx_ref BX b) <= mx)%N end ->
  bytes_encode BX s buf e = (s', buf', r) ->
  length buf' = length buf /\
  match be_bytes s' with
  | None => True
  | Some b => be_off s' <= length (bx_ref BX b) /\ (len (bx_ref BX b) <= mx)%N end /\
  match r with
  | Ok n => n <= length buf /\ skipn n buf' = skipn n buf
  | Err _ => True | _ => False end.
Proof.
  intros B BX mx [[b|] off] buf e s' buf' r H X; unfold bytes_encode in X; cbn [be_bytes be_off] in *.
  2:{ inj3 X. cbn. auto with arith. }
  destruct H as [H1 H2]. unfold usize_sub in X. replace (off <=? length (bx_ref BX b)) with true in X by lia.
  set (size := Nat.min (length buf) (length (bx_ref BX b) - off)) in *.
  assert (L : length (firstn size (skipn off (bx_ref BX b))) = size).
  { rewrite firstn_length, skipn_length. lia. }
  set (w := firstn size _) in *. clearbody w.
  assert (LB : length (overwrite buf 0 w) = length buf) by (rewrite overwrite_length; lia).
  assert (SK : skipn size (overwrite buf 0 w) = skipn size buf) by (apply skipn_overwrite; lia).
  set (b2 := overwrite buf 0 w) in *. clearbody b2.
  destruct (off + size =? _); [|destruct (is_reached e)]; inj3 X; cbn; repeat split; auto; lia.
Qed.
Lemma bytes_esafe : forall B (BX : ByteBox B) mx,
    enc_safe (bytes_encoder BX) mx true (fun b => (len (bx_ref BX b) <= mx)%N)
      (fun _ _ => False) (fun s => s = bytes_enc_new).
Proof.
  intros B BX mx. exists (fun _ s => match be_bytes s with
    | None => True
    | Some b => be_off s <= length (bx_ref BX b) /\ (len (bx_ref BX b) <= mx)%N end).
  split; [constructor|]; auto; try (intros; tauto).
  - intros t s fuel buf e s' buf' r H _ _ X. cbn in X.
    destruct (bytes_enc_step _ _ _ _ _ H X) as (A & C & D). split; auto. destruct r; tauto.
  - intros t s fuel i s' r H HI X. cbn in X. unfold bytes_start in X. destruct (bytes_enc_idle s); inj X; auto.
    cbn. lia.
  - intros t [[b|] off] H; cbn in *; [|lia]. unfold bytes_enc_exact. cbn. unfold usize_sub.
    replace (off <=? length (bx_ref BX b)) with true by lia. cbn. unfold len in *. lia.
  - intros s ->. exact Logic.I.
Qed.
Lemma null_esafe : enc_safe null_encoder 0 true (fun _ => True) (fun _ _ => False) (fun _ => True).
Proof.
  exists (fun _ _ => True). split; [constructor|]; auto.
  - intros t [] fuel buf e s' buf' r _ _ _ X. cbn in X. inj3 X. auto with arith.
  - intros t s fuel i s' r _ _ X. cbn in X. inj X. exact Logic.I.
  - intros; cbn; lia.
Qed.
Lemma pad_esafe : enc_safe pad_encoder 0 true (fun _ => True) (fun _ _ => False) (fun s => s = None).
Proof.
  exists (fun _ _ => True). split; [constructor|]; auto.
  - intros t [b|] fuel buf e s' buf' r _ _ _ X; cbn in X; inj3 X; auto with arith.
    rewrite map_length. split; auto. split; auto. split; auto. rewrite !skipn_all2; auto. now rewrite map_length.
  - intros t [b|] fuel i s' r _ _ X; cbn in X; inj X; exact Logic.I.
  - intros t [b|] _; cbn; auto. lia.
Qed.
Lemma wc_write_all_room : forall fuel w data,
  wc_room (wc_write_all fuel w data) + length (wc_a (wc_write_all fuel w data)) = wc_room w + length (wc_a w) /\
  length (wc_b (wc_write_all fuel w data)) <= length (wc_b w) + length data.
Proof.
  induction fuel as [|fuel IH]; intros w [|x data]; cbn [wc_write_all]; try (cbn; lia).
  remember (x :: data) as d eqn:ED. clear ED.
  destruct (wc_write w d) as [w' n] eqn:W. destruct (IH w' (skipn n d)) as [I1 I2].
  unfold wc_write in W. destruct (_ =? 0) eqn:Z; inj W; cbn [wc_room wc_a wc_b] in *;
    rewrite ?app_length, ?firstn_length, ?skipn_length in *; lia.
Qed.
Lemma wc_fold_room : forall chunks w,
  let w' := fold_left (fun w c => wc_write_all (length c) w c) chunks w in
  wc_room w' + length (wc_a w') = wc_room w + length (wc_a w) /\
  length (wc_b w') <= length (wc_b w) + length (concat chunks).
Proof.
  induction chunks as [|c chunks IH]; intros w; cbn [fold_left concat].
  - cbn; lia.
  - destruct (IH (wc_write_all (length c) w c)) as [I1 I2].
    destruct (wc_write_all_room (length c) w c) as [J1 J2]. rewrite app_length. cbn. lia.
Qed.
Lemma mono_esafe : forall I (f : MonoEncode I) mx,
    enc_safe (mono_encoder f) mx true (fun i => (len (concat (fst (f i))) <= mx)%N)
      (fun _ _ => False) (fun s => s = mono_enc_new).
Proof.
  intros I f mx. exists (fun _ s =>
    match me_item s with Some i => (len (concat (fst (f i))) <= mx)%N /\ be_bytes (me_buf s) = None | None => True end /\
    match be_bytes (me_buf s) with
    | None => True
    | Some b => be_off (me_buf s) <= length (bx_ref vec_box b) /\ (len (bx_ref vec_box b) <= mx)%N end).
  split; [constructor|]; auto; try (intros; tauto).
  - intros t [[i|] bs] fuel buf e s' buf' r H _ _ X; cbn [enc_encode mono_encoder] in X;
      unfold mono_encode in X; cbn [me_item me_buf] in *.
    + destruct H as [[H1 H2] H3]. destruct (f i) as [chunks err] eqn:F. cbn [fst] in H1.
      destruct (wc_fold_room chunks (mkWC [] (length buf) [])) as [W1 W2].
      set (w := fold_left _ chunks _) in *. clearbody w. cbn [wc_room wc_a wc_b length] in W1, W2.
      assert (LB : length (overwrite buf 0 (wc_a w)) = length buf) by (rewrite overwrite_length; lia).
      assert (SK : skipn (length (wc_a w)) (overwrite buf 0 (wc_a w)) = skipn (length (wc_a w)) buf)
        by (apply skipn_overwrite; lia).
      set (b2 := overwrite buf 0 (wc_a w)) in *. clearbody b2.
      destruct err as [k|].
      * inj3 X. cbn [me_item me_buf]. split; auto.
      * destruct (wc_b w) as [|x xs] eqn:WB.
        -- inj3 X. cbn [me_item me_buf]. split; auto. split; [lia|]. auto.
        -- unfold bytes_start, bytes_enc_idle in X. rewrite H2 in X. inj3 X. cbn [me_item me_buf be_bytes be_off bx_ref vec_box].
           split; auto. split; [lia|]. split; [rewrite !skipn_all2; auto; lia|]. split; auto.
           unfold len in *. lia.
    + destruct H as [_ H]. destruct (bytes_encode vec_box bs buf e) as [[b' buf2] r2] eqn:Y. inj3 X.
      destruct (bytes_enc_step _ _ _ _ _ H Y) as (A & C & D). split; auto. cbn [me_item me_buf].
      destruct r2; tauto.
  - intros t [o bs] fuel i s' r [H1 H2] HI X; cbn [enc_start mono_encoder] in X.
    destruct (mono_enc_idle _) eqn:id; inj X; cbn [me_item me_buf] in *; auto.
    unfold mono_enc_idle in id. cbn in id. destruct o; [discriminate|]. unfold bytes_enc_idle in id.
    destruct (be_bytes bs); [discriminate|]. auto.
  - intros t [o bs] [H1 H2]; cbn [enc_req mono_encoder me_item me_buf] in *. destruct (mono_enc_idle _); [lia|].
    destruct o; auto. unfold bytes_enc_exact. destruct (be_bytes bs) as [b|]; [|cbn; lia]. unfold usize_sub.
    replace (be_off bs <=? length (bx_ref vec_box b)) with true by lia. cbn in *. unfold len in *. lia.
  - intros s ->. cbn. auto.
Qed.
Lemma num_esafe : forall T (item : T -> list byte + ErrorKind) width,
    enc_safe (num_encoder item) (N.of_nat width) true
      (fun t => forall w, item t = inl w -> length w = width) (fun _ _ => False)
      (fun s => s = num_enc_new).
Proof.
  intros T item width. destruct (bytes_esafe vec_box (N.of_nat width)) as (Inv & ES & IN).
  exists Inv. split; auto. constructor; try apply ES.
  intros t s fuel i s' r H HI X. cbn in X. destruct (item i) as [w|k] eqn:E.
  - eapply (es_start ES (i := w) (fuel := fuel)); eauto. cbn. unfold len. rewrite (HI w); auto. lia.
  - inj X. auto.
Qed.

(** ** Encoders that change only [start_encoding] *)
Lemma start_esafe : forall S I T (E : Encoder S I) (E' : Encoder S T) B l (Item : I -> Prop)
    (Item' : T -> Prop) Conf Init,
  enc_safe E B l Item Conf Init ->
  (forall fuel s buf e, enc_encode E' fuel s buf e = enc_encode E fuel s buf e) ->
  (forall s, enc_req E' s = enc_req E s) ->
  (forall fuel s t, Item' t ->
    (exists i, Item i /\ enc_start E' fuel s t = enc_start E fuel s i) \/
    (exists k, enc_start E' fuel s t = (s, Err k)) \/ enc_start E' fuel s t = (s, Ok tt)) ->
  enc_safe E' B l Item' Conf Init.
Proof.
  intros S I T E E' B l Item Item' Conf Init (Inv & ES & IN) H1 H2 H3. exists Inv. split; auto.
  constructor; try apply ES.
  - intros t s fuel buf e s' buf' r. rewrite H1. apply (es_encode ES).
  - intros t s fuel i s' r H HI X. destruct (H3 fuel s i HI) as [(j & HJ & Y)|[(k & Y)|Y]]; rewrite Y in X.
    + exact (es_start ES H HJ X).
    + inj X. exact H.
    + inj X. exact H.
  - intros t s. rewrite H2. apply (es_req ES).
Qed.
Lemma map_from_esafe : forall S I T (E : Encoder S I) (f : T -> I) B l (Item : I -> Prop) Conf Init,
    enc_safe E B l Item Conf Init ->
    enc_safe (map_from_encoder E f) B l (fun t => Item (f t)) Conf Init.
Proof. intros. eapply start_esafe; eauto. Qed.
Lemma try_map_from_esafe : forall S I T (E : Encoder S I) (f : T -> I + ErrorKind) B l (Item : I -> Prop) Conf Init,
    enc_safe E B l Item Conf Init ->
    enc_safe (try_map_from_encoder E f) B l (fun t => forall i, f t = inl i -> Item i) Conf Init.
Proof.
  intros. eapply start_esafe; eauto. intros fuel s t HI. cbn. destruct (f t) as [i|k]; eauto.
Qed.
Lemma optional_esafe : forall S I (E : Encoder S I) B l (Item : I -> Prop) Conf Init,
    enc_safe E B l Item Conf Init ->
    enc_safe (optional_encoder E) B l (fun o => forall i, o = Some i -> Item i) Conf Init.
Proof.
  intros. eapply start_esafe; eauto. intros fuel s [i|] HI; cbn; eauto.
Qed.
Lemma weaken_esafe : forall S I (E : Encoder S I) B B' l l' (Item Item' : I -> Prop) Conf
    (Conf' : S -> S -> Prop) Init (Init' : S -> Prop),
    enc_safe E B l Item Conf Init ->
    (B <= B')%N -> (l' = true -> l = true) -> (forall i, Item' i -> Item i) ->
    (forall s s', Conf' s s' -> Conf s s') -> (forall s, Init' s -> Init s) ->
    enc_safe E B' l' Item' Conf' Init'.
Proof.
  intros S I E B B' l l' Item Item' Conf Conf' Init Init' (Inv & ES & IN) HB HL HI HC HN.
  exists Inv. split; auto. constructor; try apply ES.
  - intros L. apply (es_light ES). auto.
  - intros. eapply (es_conf ES); eauto.
  - intros t s fuel i s' r H Hi X. eapply (es_start ES); eauto.
  - intros t s H. pose proof (es_req ES H) as A. destruct (enc_req E s) as [[n| |]| | |]; try contradiction; auto. lia.
Qed.
Lemma map_err_esafe : forall S I (E : Encoder S I) f B l Item Conf Init,
    enc_safe E B l Item Conf Init -> enc_safe (map_err_encoder E f) B l Item Conf Init.
Proof.
  intros S I E f B l Item Conf Init (Inv & ES & IN). exists Inv. split; auto. constructor; try apply ES.
  - intros t s fuel buf e s' buf' r H L EF X. cbn in X. destruct (enc_encode E fuel s buf e) as [[s1 b1] x] eqn:Y.
    inj3 X. pose proof (es_encode ES H L EF Y) as A. destruct x; exact A.
  - intros t s fuel i s' r H HI X. cbn in X. destruct (enc_start E fuel s i) as [s1 x] eqn:Y.
    inj X. pose proof (es_start ES H HI Y) as A. destruct x; exact A.
Qed.

(** ** repeat *)
Lemma pull_safe : forall S I (E : Encoder S I) B l (Item : I -> Prop) Conf Inv t fuel,
  esafe E B l Item Conf Inv -> forall items s, Inv t s -> Forall Item items ->
  match repeat_pull E fuel s items with
  | PullGo s' rest => Inv t s' /\ Forall Item rest
  | PullDone s' => Inv t s'
  | PullFail s' rest r => match r with Err _ => Inv t s' /\ Forall Item rest | OutOfFuel => True | _ => False end
  end.
Proof.
  intros S I E B l Item Conf Inv t fuel ES. induction items as [|i items IH]; intros s H HI; cbn [repeat_pull].
  - destruct (enc_idle E s); auto.
  - inversion HI; subst. destruct (enc_idle E s); auto.
    destruct (enc_start E fuel s i) as [s' r] eqn:X. pose proof (es_start ES H H2 X) as A.
    destruct r as [u|k| |]; try contradiction; cbn; auto. exact (IH _ A H3).
Qed.
Lemma repeat_esafe : forall S I (E : Encoder S I) B l (Item : I -> Prop) Conf (Init : S -> Prop),
    enc_safe E B l Item Conf Init ->
    enc_safe (repeat_encoder E) 0 l (Forall Item)
      (fun st st' => Conf (rp_inner st) (rp_inner st') /\ rp_items st' = rp_items st)
      (fun st => exists s, Init s /\ st = repeat_new s).
Proof.
  intros S I E B l Item Conf Init (Inv & ES & IN).
  set (IV := fun t (st : Repeat S I) => Inv t (rp_inner st) /\
    match rp_items st with Some its => Forall Item its | None => True end).
  assert (LP : forall n fuel t st off buf e st' buf' r, IV t st -> off <= length buf ->
    (t + len (skipn off buf) <= phys)%N -> eos_fits u64_max buf e ->
    repeat_loop E n fuel st off buf e = (st', buf', r) ->
    length buf' = length buf /\
    match r with
    | Ok m => off <= m <= length buf /\ skipn m buf' = skipn m buf /\ IV (t + N.of_nat (m - off))%N st'
    | Err _ => IV (t + len (skipn off buf))%N st'
    | Panic => False
    | OutOfFuel => True
    end).
  { induction n as [|n IH]; intros fuel t [s o] off buf e st' buf' r [H1 H2] LO L EF X; cbn [repeat_loop] in X.
    - inj3 X. auto.
    - cbn [rp_inner rp_items] in *.
      assert (HI : Forall Item (match o with Some l0 => l0 | None => [] end)) by (destruct o; auto).
      pose proof (@pull_safe _ _ _ _ _ _ _ _ _ fuel ES _ _ H1 HI) as P.
      destruct (repeat_pull E fuel s _) as [s1 rest|s1|s1 rest r1].
      + destruct P as [P1 P2]. rewrite slice_from_some in X by auto.
        destruct (enc_encode E fuel s1 (skipn off buf) e) as [[s2 b2] x] eqn:Y.
        destruct (es_encode ES P1 L (eos_fits_skip _ _ _ _ EF) Y) as [A1 A2].
        assert (LB : length (firstn off buf ++ b2) = length buf) by (apply splice_length; auto).
        assert (W : match (match o with Some _ => Some rest | None => None end) with
                    | Some its => Forall Item its | None => True end) by (destruct o; auto).
        destruct x as [m|k| |]; try contradiction.
        * destruct A2 as (A2 & A3 & A4). rewrite skipn_length in A2.
          assert (SK := @splice_skip off m buf b2 LO A3).
          destruct (m =? 0).
          -- inj3 X. split; auto. split; [lia|]. split; auto.
             replace (off + m - off) with m by lia. split; auto.
          -- assert (len (skipn (off + m) (firstn off buf ++ b2)) = len (skipn (off + m) buf)) as E1 by (now rewrite SK).
             pose proof (len_app_le (n := off + m) buf ltac:(lia)) as LA1.
             pose proof (len_app_le (n := off) buf ltac:(lia)) as LA.
             assert (EF' : eos_fits u64_max (firstn off buf ++ b2) e).
             { destruct e; cbn in *; auto. unfold len in *. rewrite LB. lia. }
             destruct (IH fuel (t + N.of_nat m)%N
               (mkRepeat s2 (match o with Some _ => Some rest | None => None end))
               (off + m) (firstn off buf ++ b2) e st' buf' r (conj A4 W)
               ltac:(lia) ltac:(lia) EF' X) as [C1 C2].
             split; [lia|]. destruct r as [m'|k| |]; auto.
             ++ destruct C2 as (C2 & C3 & C4). rewrite LB in C2. split; [lia|].
                split; [eapply keep_more; [|exact SK|exact C3]; lia|].
                replace (t + N.of_nat (m' - off))%N with (t + N.of_nat m + N.of_nat (m' - (off + m)))%N by lia. auto.
             ++ rewrite E1 in C2. replace (t + len (skipn off buf))%N with (t + N.of_nat m + len (skipn (off + m) buf))%N by lia. auto.
        * inj3 X. split; auto. split; auto.
        * inj3 X. auto.
      + inj3 X. split; auto. split; [lia|]. split; auto. rewrite Nat.sub_diag, N.add_0_r. split; cbn; auto.
      + inj3 X. split; auto. destruct r1 as [m|k| |]; try contradiction; auto. destruct P as [P1 P2].
        split; cbn [rp_inner rp_items]; [|destruct o; auto]. eapply (es_mono ES); [|exact P1]. lia. }
  exists IV. split; [constructor|].
  - intros t t' s L [H1 H2]. split; auto. eapply (es_mono ES); eauto.
  - intros L t s [H1 H2]. split; auto. eapply (es_light ES); eauto.
  - intros t s s' [H1 H2] [C E']. split; rewrite ?E'; auto. eapply (es_conf ES); eauto.
  - intros t st fuel buf e st' buf' r H L EF X.
    destruct (LP fuel fuel t st 0 buf e st' buf' r H ltac:(lia) ltac:(cbn [skipn]; exact L) EF X) as [A1 A2].
    split; auto. destruct r as [m|k| |]; auto. rewrite Nat.sub_0_r in A2. destruct A2 as (A2 & A3 & A4). split; [lia|auto].
  - intros t st fuel its st' r [H1 H2] HI X. cbn in X. destruct (repeat_idle st); inj X; split; auto.
  - intros t st [H1 H2]. cbn. destruct (repeat_idle st); auto. lia.
  - intros st (s & H & ->). split; cbn; auto.
Qed.

(** ** length, max_bytes, slice *)
Lemma length_esafe : forall S I (E : Encoder S I) B l (Item : I -> Prop) Conf (Init : S -> Prop) mx,
    enc_safe E B l Item Conf Init ->
    enc_safe (length_encoder E) mx l Item
      (fun st st' => (exists n, (n <= mx)%N /\ st' = fst (length_set_expected st n)) \/
                     (Conf (ln_inner st) (ln_inner st') /\ ln_expected st' = ln_expected st /\
                      ln_remaining st' = ln_remaining st))
      (fun st => exists s n, Init s /\ (n <= mx)%N /\ st = length_new s n).
Proof.
  intros S I E B l Item Conf Init mx (Inv & ES & IN).
  exists (fun t st => Inv t (ln_inner st) /\ (ln_remaining st <= ln_expected st)%N /\ (ln_expected st <= mx)%N).
  split; [constructor|].
  - intros t t' s L (H1 & H2). split; auto. eapply (es_mono ES); eauto.
  - intros L t s [H1 H2]. split; auto. eapply (es_light ES); eauto.
  - intros t s s' (H1 & H2 & H3) [(n & LN & ->)|(C & -> & ->)].
    + unfold length_set_expected. destruct (_ =? _)%N; cbn; auto. split; auto. lia.
    + split; auto. eapply (es_conf ES); eauto.
  - intros t [s ex rm] fuel buf e s' buf' r (H1 & H2 & H3) L EF X. cbn [ln_inner ln_expected ln_remaining] in *.
    cbn [enc_encode length_encoder] in X. unfold length_encode in X. cbn [ln_inner ln_expected ln_remaining] in X.
    destruct ((len buf <? rm)%N && is_reached e).
    { inj3 X. cbn. split; auto. split; auto. eapply (es_mono ES); [|exact H1]. lia. }
    set (limit := if (len buf <? rm)%N then length buf else N.to_nat rm) in *.
    set (e' := if (len buf <? rm)%N then e else eos_new true) in *.
    assert (LL : limit <= length buf /\ (N.of_nat limit <= rm)%N).
    { unfold limit. destruct (len buf <? rm)%N eqn:Z; unfold len in *; lia. }
    assert (FL : length (firstn limit buf) = limit) by (rewrite firstn_length; lia).
    assert (LF : len (firstn limit buf) = N.of_nat limit) by (unfold len; lia).
    assert (EF' : eos_fits u64_max (firstn limit buf) e').
    { unfold e'. destruct (len buf <? rm)%N; [|cbn; rewrite LF; unfold len, phys, u64_max in *; lia].
      destruct e; cbn in *; auto. rewrite LF. unfold len in *. lia. }
    clearbody limit e'.
    destruct (enc_encode E fuel s (firstn limit buf) e') as [[s1 b1] x] eqn:Y.
    destruct (es_encode ES H1 ltac:(rewrite LF; unfold len in *; lia) EF' Y) as [A1 A2]. rewrite FL in A1.
    destruct x as [n|k| |]; try contradiction.
    + destruct A2 as (A2 & A3 & A4). rewrite FL in A2.
      destruct (@prefix_skip limit n buf b1 ltac:(lia) A2 A1 A3) as [P1 P2].
      unfold u64_sub in X. replace (N.of_nat n <=? rm)%N with true in X by lia.
      destruct (_ && _); inj3 X; cbn [ln_inner ln_expected ln_remaining]; split; auto.
      * split; [eapply (es_mono ES); [|exact A4]; unfold len; lia|]. lia.
      * split; [lia|]. split; auto. split; auto. lia.
    + inj3 X. split; [rewrite app_length, skipn_length; lia|]. cbn. split; auto.
      eapply (es_mono ES); [|exact A2]. rewrite LF. unfold len; lia.
    + inj3 X. split; auto. rewrite app_length, skipn_length; lia.
  - intros t [s ex rm] fuel i s' r (H1 & H2 & H3) HI X. cbn in *. destruct (rm =? ex)%N; [|inj X; auto].
    destruct (enc_start E fuel s i) as [s1 x] eqn:Y. inj X. pose proof (es_start ES H1 HI Y) as A.
    destruct x; cbn; auto; split; auto; lia.
  - intros t [s ex rm] (H1 & H2 & H3). cbn in *. lia.
  - intros st (s & n & H & LN & ->). cbn. split; auto. lia.
Qed.
Lemma max_esafe : forall S I (E : Encoder S I) B l (Item : I -> Prop) Conf (Init : S -> Prop),
    enc_safe E B l Item Conf Init ->
    enc_safe (max_encoder E) B false Item
      (fun st st' => (exists n, st' = fst (max_set st n)) \/
                     (Conf (mx_inner st) (mx_inner st') /\ mx_consumed st' = mx_consumed st /\
                      mx_max st' = mx_max st))
      (fun st => exists s n, Init s /\ st = max_new s n).
Proof.
  intros S I E B l Item Conf Init (Inv & ES & IN).
  exists (fun t st => Inv t (mx_inner st) /\ (mx_consumed st <= t)%N).
  split; [constructor|].
  - intros t t' s L (H1 & H2). split; [|lia]. eapply (es_mono ES); eauto.
  - discriminate.
  - intros t s s' (H1 & H2) [(n & ->)|(C & -> & E2)].
    + unfold max_set. destruct (_ <=? n)%N eqn:Z; cbn; auto.
    + split; auto. eapply (es_conf ES); eauto.
  - intros t [s c mx] fuel buf e s' buf' r (H1 & H2) L EF X. cbn in *. unfold max_encode in X. cbn in X.
    destruct (enc_encode E fuel s buf e) as [[s1 b1] x] eqn:Y. destruct (es_encode ES H1 L EF Y) as [A1 A2].
    destruct x as [n|k| |]; try contradiction.
    + destruct A2 as (A2 & A3 & A4). assert (N.of_nat n <= len buf)%N by (unfold len; lia).
      unfold u64_add in X. replace (c + N.of_nat n <=? u64_max)%N with true in X by (unfold phys, u64_max in *; lia).
      destruct (_ <=? mx)%N; inj3 X; cbn; split; auto.
      * split; auto. split; auto. split; auto. destruct (enc_idle E s1); lia.
      * split; [|lia]. eapply (es_mono ES); [|exact A4]. lia.
    + inj3 X. split; auto. cbn. split; auto. lia.
    + inj3 X. auto.
  - intros t [s c mx] fuel i s' r (H1 & H2) HI X. cbn in *. destruct (enc_start E fuel s i) as [s1 x] eqn:Y. inj X.
    pose proof (es_start ES H1 HI Y) as A. destruct x; auto.
  - intros t [s c mx] (H1 & _). exact (es_req ES H1).
  - intros st (s & n & H & ->). cbn. split; auto. lia.
Qed.
Lemma slice_esafe : forall S I (E : Encoder S I) B l (Item : I -> Prop) Conf (Init : S -> Prop),
    enc_safe E B l Item Conf Init ->
    enc_safe (slice_encoder E) B l Item
      (fun st st' => (exists n, st' = slice_set st n) \/
                     (Conf (sl_inner st) (sl_inner st') /\ sl_consumable st' = sl_consumable st))
      (fun st => exists s, Init s /\ st = slice_new s).
Proof.
  intros S I E B l Item Conf Init (Inv & ES & IN).
  exists (fun t st => Inv t (sl_inner st)). split; [constructor|].
  - intros. eapply (es_mono ES); eauto.
  - intros L t s H. eapply (es_light ES); eauto.
  - intros t s s' H [(n & ->)|(C & _)]; auto. eapply (es_conf ES); eauto.
  - intros t [s c] fuel buf e s' buf' r H L EF X. cbn [sl_inner] in H. cbn [enc_encode slice_encoder] in X.
    unfold slice_encode in X. cbn [sl_inner sl_consumable] in X.
    set (limit := N.to_nat (N.min (len buf) c)) in *.
    assert (LL : limit <= length buf /\ (N.of_nat limit <= c)%N) by (unfold limit, len; lia).
    assert (FL : length (firstn limit buf) = limit) by (rewrite firstn_length; lia).
    assert (LF : len (firstn limit buf) = N.of_nat limit) by (unfold len; lia).
    assert (EB : exists e', eos_back e (N.of_nat (length buf - limit)) = Some e' /\ eos_fits u64_max (firstn limit buf) e').
    { destruct e as [m| |]; cbn in *; eauto. unfold u64_add. unfold len in *.
      replace (m + N.of_nat (length buf - limit) <=? u64_max)%N with true by lia. eexists; split; [reflexivity|].
      cbn. unfold len in *. lia. }
    clearbody limit. destruct EB as (e' & EB & EF'). rewrite EB in X.
    destruct (enc_encode E fuel s (firstn limit buf) e') as [[s1 b1] x] eqn:Y.
    destruct (es_encode ES H ltac:(rewrite LF; unfold len in *; lia) EF' Y) as [A1 A2]. rewrite FL in A1.
    destruct x as [n|k| |]; try contradiction.
    + destruct A2 as (A2 & A3 & A4). rewrite FL in A2.
      destruct (@prefix_skip limit n buf b1 ltac:(lia) A2 A1 A3) as [P1 P2].
      unfold u64_sub in X. replace (N.of_nat n <=? c)%N with true in X by lia. inj3 X. cbn.
      split; auto. split; [lia|]. auto.
    + inj3 X. split; [rewrite app_length, skipn_length; lia|]. cbn.
      eapply (es_mono ES); [|exact A2]. rewrite LF. unfold len; lia.
    + inj3 X. split; auto. rewrite app_length, skipn_length; lia.
  - intros t [s c] fuel i s' r H HI X. cbn in *. destruct (enc_start E fuel s i) as [s1 x] eqn:Y. inj X.
    pose proof (es_start ES H HI Y) as A. destruct x; auto.
  - intros t [s c] H. exact (es_req ES H).
  - intros st (s & H & ->). cbn. auto.
Qed.

(** ** last *)
Lemma last_esafe : forall S I (E : Encoder S I) B l (Item : I -> Prop) Conf (Init : S -> Prop),
    enc_safe E B l Item Conf Init ->
    enc_safe (last_encoder E) B l (fun _ => True)
      (fun st st' => Conf (la_inner st) (la_inner st') /\ la_item st' = la_item st)
      (fun st => exists s i, Init s /\ Item i /\ st = last_new s i).
Proof.
  intros S I E B l Item Conf Init (Inv & ES & IN).
  set (IV := fun t (st : Last S I) => Inv t (la_inner st) /\ forall i, la_item st = Some i -> Item i).
  assert (RUN : forall t s o fuel buf e st' buf' r, Inv t s -> (forall i, o = Some i -> Item i) ->
    (t + len buf <= phys)%N -> eos_fits u64_max buf e ->
    (let '(s', buf', r) := enc_encode E fuel s buf e in (mkLast s' o, buf', r)) = (st', buf', r) ->
    length buf' = length buf /\
    match r with
    | Ok n => n <= length buf /\ skipn n buf' = skipn n buf /\ IV (t + N.of_nat n)%N st'
    | Err _ => IV (t + len buf)%N st'
    | Panic => False
    | OutOfFuel => True
    end).
  { intros t s o fuel buf e st' buf' r H HO L EF X. destruct (enc_encode E fuel s buf e) as [[s1 b1] x] eqn:Y.
    inj3 X. destruct (es_encode ES H L EF Y) as [A1 A2]. split; auto. destruct x as [n|k| |]; auto.
    - destruct A2 as (A2 & A3 & A4). split; auto. split; auto. split; auto.
    - split; auto. }
  exists IV. split; [constructor|].
  - intros t t' s L [H1 H2]. split; auto. eapply (es_mono ES); eauto.
  - intros L t s [H1 H2]. split; auto. eapply (es_light ES); eauto.
  - intros t s s' [H1 H2] [C E']. split; rewrite ?E'; auto. eapply (es_conf ES); eauto.
  - intros t [s o] fuel buf e st' buf' r [H1 H2] L EF X. cbn [la_inner la_item] in *.
    cbn [enc_encode last_encoder] in X. unfold last_encode in X. cbn [la_inner la_item] in X.
    destruct (enc_idle E s).
    + destruct o as [i|].
      * destruct (enc_start E fuel s i) as [s1 x] eqn:Y. pose proof (es_start ES H1 (H2 i eq_refl) Y) as A.
        destruct x as [u|k| |]; try contradiction.
        -- refine (RUN t s1 None fuel buf e st' buf' r A _ L EF X). discriminate.
        -- inj3 X. split; auto. split; cbn; [|discriminate]. eapply (es_mono ES); [|exact A]. lia.
        -- inj3 X. split; auto.
      * eapply RUN; eauto.
    + eapply RUN; eauto.
  - intros t s fuel [].
  - intros t [s [i|]] [H1 H2]; cbn in *; auto. exact (es_req ES H1).
  - intros st (s & i & H & HI & ->). split; cbn; auto. intros ? [= <-]. auto.
Qed.

(** ** pre_encode *)
Lemma encode_all_safe : forall S I (E : Encoder S I) B (Item : I -> Prop) Conf Inv,
  esafe E B true Item Conf Inv -> forall fuel ifuel s buf w s' w' r, Inv 0%N s ->
  length buf = io_buf_size -> (wr_plan w = []) -> encode_all_loop E fuel ifuel s buf w = (s', w', r) ->
  match r with Panic => False | OutOfFuel => True | _ => Inv 0%N s' end.
Proof.
  intros S I E B Item Conf Inv ES. induction fuel as [|fuel IH]; intros ifuel s buf w s' w' r H LB WP X;
    cbn [encode_all_loop] in X; destruct (enc_idle E s); try (inj3 X; auto; fail).
  destruct (enc_encode E ifuel s buf (eos_new false)) as [[s1 b1] x] eqn:Y.
  assert (LP : (0 + len buf <= phys)%N).
  { unfold len. rewrite LB. vm_compute. discriminate. }
  destruct (es_encode ES H LP (Logic.I : eos_fits u64_max buf (eos_new false)) Y) as [A1 A2].
  destruct x as [n|k| |]; try contradiction.
  - destruct A2 as (A2 & A3 & A4). replace (n <=? length b1) with true in X by lia.
    apply (es_light ES eq_refl) in A4.
    destruct (wr_write_all w (firstn n b1)) as [w1 x] eqn:W.
    assert (W2 : wr_plan w1 = [] /\ x = Ok tt).
    { unfold wr_write_all in W. rewrite WP in W. cbn [length wr_write_all_loop] in W.
      destruct (firstn n b1) as [|y ys]; [inj W; auto|]. unfold wr_write in W. rewrite WP in W.
      cbn [length skipn] in W. rewrite skipn_all in W. inj W. auto. }
    destruct W2 as [W2 ->]. destruct (_ && _).
    + inj3 X. auto.
    + eapply IH; [exact A4| |exact W2|exact X]. lia.
  - inj3 X. cbn. exact (es_light ES eq_refl A2).
  - inj3 X. exact Logic.I.
Qed.
Lemma into_bytes_safe : forall S I (E : Encoder S I) B (Item : I -> Prop) Conf Inv t fuel s i s' r,
  esafe E B true Item Conf Inv -> (B <= phys)%N -> Inv t s -> Item i ->
  encode_into_bytes E fuel s i = (s', r) ->
  match r with Ok b => Inv 0%N s' /\ (len b <= isize_max)%N | Err _ => Inv 0%N s' | Panic => False | OutOfFuel => True end.
Proof.
  intros S I E B Item Conf Inv t fuel s i s' r ES HB H HI X. unfold encode_into_bytes in X.
  destruct (enc_start E fuel s i) as [s1 x] eqn:Y. pose proof (es_start ES H HI Y) as A.
  destruct x as [u|k| |]; try contradiction; [|inj X; exact (es_light ES eq_refl A)|inj X; exact Logic.I].
  apply (es_light ES eq_refl) in A. pose proof (es_req ES A) as RQ.
  destruct (enc_req E s1) as [[n| |]| | |]; try contradiction.
  - replace (n <=? isize_max)%N with true in X by (unfold phys, isize_max in *; lia).
    destruct (enc_encode E fuel s1 _ _) as [[s2 b2] x] eqn:Z.
    assert (LR : len (repeat x00 (N.to_nat n)) = n) by (unfold len; rewrite repeat_length; lia).
    assert (EF : eos_fits u64_max (repeat x00 (N.to_nat n)) (eos_new true)).
    { cbn. rewrite LR. unfold phys, u64_max in *. lia. }
    destruct (es_encode ES A ltac:(rewrite LR; lia) EF Z) as [A1 A2].
    rewrite repeat_length in A1.
    destruct x as [m|k| |]; try contradiction.
    + destruct A2 as (A2 & A3 & A4). apply (es_light ES eq_refl) in A4. destruct (enc_idle E s2); inj X; auto.
      split; auto. unfold len, phys, isize_max in *. lia.
    + inj X. exact (es_light ES eq_refl A2).
    + inj X. exact Logic.I.
  - inj X. exact A.
  - unfold encode_all in X. destruct (encode_all_loop E fuel fuel s1 _ _) as [[s2 w2] x] eqn:Z.
    pose proof (@encode_all_safe _ _ _ _ _ _ _ ES fuel fuel s1 (repeat x00 io_buf_size) (mkWriter [] []) _ _ _ A (repeat_length _ _) eq_refl Z) as C.
    destruct x; try contradiction; inj X; auto. destruct (_ <=? _)%N eqn:LE; auto. split; auto. lia.
Qed.
Lemma pre_esafe : forall S I (E : Encoder S I) B (Item : I -> Prop) Conf Init,
    enc_safe E B true Item Conf Init -> (B <= phys)%N ->
    enc_safe (pre_encoder E) isize_max true Item
      (fun st st' => Conf (pre_inner st) (pre_inner st') /\ pre_encoded st' = pre_encoded st)
      (fun st => exists s, Init s /\ st = pre_new s).
Proof.
  intros S I E B Item Conf Init (Inv & ES & IN) HB.
  exists (fun _ st => Inv 0%N (pre_inner st) /\
    match be_bytes (pre_encoded st) with
    | None => True
    | Some b => be_off (pre_encoded st) <= length (bx_ref vec_box b) /\ (len (bx_ref vec_box b) <= isize_max)%N end).
  split; [constructor|]; auto.
  - intros t s s' [H1 H2] [C E']. split; rewrite ?E'; auto. eapply (es_conf ES); eauto.
  - intros t [s b] fuel buf e s' buf' r [H1 H2] L EF X. cbn [pre_inner pre_encoded] in *.
    cbn [enc_encode pre_encoder] in X. cbn [pre_inner pre_encoded] in X.
    destruct (bytes_encode vec_box b buf e) as [[b' buf2] x] eqn:Y. inj3 X.
    destruct (bytes_enc_step _ _ _ _ _ H2 Y) as (A & C & D). split; auto. cbn [pre_inner pre_encoded].
    destruct x; tauto.
  - intros t [s b] fuel i s' r [H1 H2] HI X. cbn [pre_inner pre_encoded] in *. cbn [enc_start pre_encoder] in X.
    unfold pre_start in X. cbn [pre_inner pre_encoded] in X.
    destruct (encode_into_bytes E fuel s i) as [s1 x] eqn:Y.
    pose proof (@into_bytes_safe _ _ _ _ _ _ _ _ _ _ _ _ _ ES HB H1 HI Y) as A. destruct x as [w|k| |]; try contradiction.
    + unfold bytes_start in X. destruct (bytes_enc_idle b); inj X; cbn [pre_inner pre_encoded]; [|tauto].
      cbn. split; [tauto|]. split; [lia|tauto].
    + inj X. cbn. auto.
    + inj X. exact Logic.I.
  - intros t [s b] [H1 H2]. cbn [pre_inner pre_encoded enc_req pre_encoder] in *. unfold bytes_enc_exact.
    destruct (be_bytes b) as [w|]; [|cbn; lia]. unfold usize_sub.
    replace (be_off b <=? length (bx_ref vec_box w)) with true by lia. cbn in *. unfold len in *. lia.
  - intros st (s & H & ->). cbn. auto.
Qed.

(** ** Tuples *)
Lemma try_esafe : forall S I (E : Encoder S I) B l (Item : I -> Prop) Conf Inv t s fuel off buf e,
  esafe E B l Item Conf Inv -> Inv t s -> off <= length buf ->
  (t + len (skipn off buf) <= phys)%N -> eos_fits u64_max buf e ->
  length (snd (try_encode E fuel s off buf e)) = length buf /\
  match fst (try_encode E fuel s off buf e) with
  | TGo s' off' | TRet s' (Ok off') => off <= off' <= length buf /\ Inv (t + N.of_nat (off' - off))%N s' /\
     skipn off' (snd (try_encode E fuel s off buf e)) = skipn off' buf
  | TRet s' (Err _) => Inv (t + len (skipn off buf))%N s'
  | TRet _ Panic => False
  | TRet _ OutOfFuel => True
  end.
Proof.
  intros S I E B l Item Conf Inv t s fuel off buf e ES H LO L EF. unfold try_encode.
  destruct (enc_idle E s) eqn:id.
  { cbn. split; auto. split; [lia|]. replace (off - off) with 0 by lia. rewrite N.add_0_r. auto. }
  rewrite slice_from_some by auto.
  destruct (enc_encode E fuel s (skipn off buf) e) as [[s' b'] r] eqn:X.
  destruct (es_encode ES H L (eos_fits_skip _ _ _ _ EF) X) as [A1 A2].
  pose proof (@splice_length off buf b' LO A1) as LB.
  destruct r as [n|k| |]; cbn [fst snd]; auto. destruct A2 as (A2 & A3 & A4). rewrite skipn_length in A2.
  pose proof (@splice_skip off n buf b' LO A3) as SK.
  destruct (enc_idle E s') eqn:id'; cbn [fst snd]; (split; [exact LB|]; split; [lia|]);
    replace (off + n - off) with n by lia; auto.
Qed.
Lemma pair_esafe : forall S0 S1 I0 I1 (E0 : Encoder S0 I0) (E1 : Encoder S1 I1)
    B0 B1 l (Item0 : I0 -> Prop) (Item1 : I1 -> Prop) Conf0 Conf1 Init0 Init1,
    enc_safe E0 B0 l Item0 Conf0 Init0 -> enc_safe E1 B1 l Item1 Conf1 Init1 ->
    (B0 + B1 <= u64_max)%N ->
    enc_safe (tuple2_encoder E0 E1) (B0 + B1) l
      (fun i => Item0 (fst i) /\ Item1 (snd i))
      (fun s s' => (Conf0 (fst s) (fst s') /\ snd s' = snd s) \/
                   (fst s' = fst s /\ Conf1 (snd s) (snd s')))
      (fun s => Init0 (fst s) /\ Init1 (snd s)).
Proof.
  intros S0 S1 I0 I1 E0 E1 B0 B1 l Item0 Item1 Conf0 Conf1 Init0 Init1 (Inv0 & ES0 & IN0) (Inv1 & ES1 & IN1) HB.
  exists (fun t s => Inv0 t (fst s) /\ Inv1 t (snd s)). split; [constructor|].
  - intros t t' s L [H0 H1]. split; [eapply (es_mono ES0); eauto|eapply (es_mono ES1); eauto].
  - intros L t s [H0 H1]. split; [eapply (es_light ES0); eauto|eapply (es_light ES1); eauto].
  - intros t [s0 s1] [s0' s1'] [H0 H1] [[C E]|[E C]]; cbn in *; subst; split; auto;
      [eapply (es_conf ES0); eauto|eapply (es_conf ES1); eauto].
  - intros t [s0 s1] fuel buf e s' buf' r [H0 H1] L EF X. cbn [fst snd] in *. cbn in X.
    destruct (@try_esafe _ _ _ _ _ _ _ _ t s0 fuel 0 buf e ES0 H0 ltac:(lia) ltac:(cbn [skipn]; exact L) EF) as [LB A].
    destruct (try_encode E0 fuel s0 0 buf e) as [[s0' off|s0' x] b0]; cbn [fst snd] in *.
    + destruct A as (A1 & A2 & A3). rewrite Nat.sub_0_r in A2.
      pose proof (len_app_le (n := off) buf ltac:(lia)) as LA.
      assert (LA' : len (skipn off b0) = len (skipn off buf)) by now rewrite A3.
      assert (H1' : Inv1 (t + N.of_nat off)%N s1) by (eapply (es_mono ES1); [|exact H1]; lia).
      assert (EF' : eos_fits u64_max b0 e) by (destruct e; cbn in *; auto; unfold len in *; lia).
      destruct (@try_esafe _ _ _ _ _ _ _ _ _ s1 fuel off b0 e ES1 H1' ltac:(lia) ltac:(lia) EF') as [LB1 C].
      destruct (try_encode E1 fuel s1 off b0 e) as [[s1' off1|s1' x] b1]; cbn [fst snd] in *.
      * inj3 X. destruct C as (C1 & C2 & C3). cbn [fst snd]. split; [lia|]. split; [lia|]. split.
        -- eapply keep_more; [|exact A3|exact C3]. lia.
        -- split; [eapply (es_mono ES0); [|exact A2]; lia|].
           replace (t + N.of_nat off1)%N with (t + N.of_nat off + N.of_nat (off1 - off))%N by lia. auto.
      * inj3 X. split; [lia|]. destruct x as [n|k| |]; auto; cbn [fst snd].
        -- destruct C as (C1 & C2 & C3). split; [lia|]. split.
           ++ eapply keep_more; [|exact A3|exact C3]. lia.
           ++ split; [eapply (es_mono ES0); [|exact A2]; lia|].
              replace (t + N.of_nat n)%N with (t + N.of_nat off + N.of_nat (n - off))%N by lia. auto.
        -- split; [eapply (es_mono ES0); [|exact A2]; lia|]. rewrite LA' in C.
           replace (t + len buf)%N with (t + N.of_nat off + len (skipn off buf))%N by lia. auto.
    + inj3 X. split; [lia|]. destruct x as [n|k| |]; auto; cbn [fst snd].
      * destruct A as (A1 & A2 & A3). rewrite Nat.sub_0_r in A2. split; [lia|]. split; auto.
        split; auto. eapply (es_mono ES1); [|exact H1]; lia.
      * split; auto. eapply (es_mono ES1); [|exact H1]; lia.
  - intros t [s0 s1] fuel [i0 i1] s' r [H0 H1] [HI0 HI1] X. cbn in *.
    destruct (enc_start E0 fuel s0 i0) as [s0' x] eqn:Y. pose proof (es_start ES0 H0 HI0 Y) as F.
    destruct x as [u|k| |]; try contradiction; [|inj X; cbn; auto..].
    destruct (enc_start E1 fuel s1 i1) as [s1' x] eqn:Z. pose proof (es_start ES1 H1 HI1 Z) as G.
    inj X. destruct x; cbn; auto.
  - intros t [s0 s1] [H0 H1]. pose proof (es_req ES0 H0) as A. pose proof (es_req ES1 H1) as C. cbn in *.
    destruct (enc_req E0 s0) as [[a| |]| | |]; try contradiction;
    destruct (enc_req E1 s1) as [[b| |]| | |]; try contradiction; cbn [rbind add_for_encoding opt_finite];
      unfold u64_add; rewrite ?N.add_0_l;
      try (replace (a <=? u64_max)%N with true by lia); cbn [rbind add_for_encoding opt_finite]; unfold u64_add;
      try (replace (a + b <=? u64_max)%N with true by lia); cbn; auto; try lia.
  - intros [s0 s1] [H0 H1]. cbn in *. auto.
Qed.
Lemma sim_esafe : forall S I (E E' : Encoder S I) B l (Item : I -> Prop) Conf Init,
  enc_sim E E' -> enc_safe E B l Item Conf Init -> enc_safe E' B l Item Conf Init.
Proof.
  intros S I E E' B l Item Conf Init (E1 & E2 & E3 & E4) (Inv & ES & IN).
  exists Inv. split; auto. constructor; try apply ES.
  - intros t s fuel buf e s' buf' r H L EF X. rewrite <- E1 in X. exact (es_encode ES H L EF X).
  - intros t s fuel i s' r H HI X. rewrite <- E2 in X. exact (es_start ES H HI X).
  - intros t s H. pose proof (es_req ES H) as A. destruct (enc_req E s) as [qq| | |] eqn:R; try contradiction.
    rewrite (E3 _ _ R). exact A.
Qed.

(** ** Every composition *)
Theorem composed_enc_safe : forall S I (E : Encoder S I) B l Item Conf Init,
  composed_enc E B l Item Conf Init -> enc_safe E B l Item Conf Init.
Proof.
  induction 1.
  - eapply weaken_esafe; eauto.
  - assumption.
  - apply bytes_esafe.
  - apply null_esafe.
  - apply pad_esafe.
  - apply mono_esafe.
  - apply num_esafe.
  - now apply map_err_esafe.
  - now apply map_from_esafe.
  - now apply try_map_from_esafe.
  - eapply repeat_esafe; eauto.
  - now apply optional_esafe.
  - eapply length_esafe; eauto.
  - eapply max_esafe; eauto.
  - eapply pre_esafe; eauto.
  - now apply slice_esafe.
  - eapply last_esafe; eauto.
  - eapply pair_esafe; eauto.
  - eapply sim_esafe; [apply etuple_snoc_sim; assumption|]. eapply pair_esafe; eauto.
Qed.
Lemma ecalls_inv : forall S I (E : Encoder S I) B l Item Conf Inv s0 t s,
  esafe E B l Item Conf Inv -> Inv 0%N s0 -> ecalls E Item Conf s0 t s -> Inv t s.
Proof.
  intros S I E B l Item Conf Inv s0 t s ES H0 C. induction C; auto.
  - pose proof (es_start ES IHC H H1) as A. destruct r; try congruence; auto.
  - destruct (es_encode ES IHC H H1 H2) as [_ A]. destruct r; try congruence; auto.
    destruct A as (A1 & A2 & A3). eapply (es_mono ES); [|exact A3]. unfold len. lia.
  - eapply (es_conf ES); eauto.
Qed.
