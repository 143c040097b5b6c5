(** * Soundness of decoders: proofs. *)
From Verif Require Export Sound UniverseProofs.
Set Implicit Arguments.

Lemma sound_closed : forall S I (D : Decoder S I) fmt again bz,
  sound_step D fmt again bz (sound_from D fmt again bz).
Proof.
  intros S I D fmt again bz. constructor.
  - intros s acc fuel buf e s' n (H & HS & h) id E. destruct (sd_decode HS h id E) as [L h'].
    split; auto. exists H; auto.
  - intros s acc s' i (H & HS & h) E. destruct (sd_finish HS h E) as [F h'].
    split; auto. intros A. destruct (h' A). split; auto. exists H; auto.
Qed.
Lemma sound_sub : forall S I (D : Decoder S I) (F G : format I) a b a' b' s acc,
  sound_from D F a b s acc -> (forall w i, F w i -> G w i) ->
  (a' = true -> a = true) -> (a' = true -> b' = true -> b = true) -> sound_from D G a' b' s acc.
Proof.
  intros S I D F G a b a' b' s acc (H & [H1 H2] & h) FG AA BB. exists H; split; auto.
  constructor; auto. intros s0 acc0 s' i h0 E. destruct (H2 _ _ _ _ h0 E) as [K1 K2]. split; auto.
  intros A. destruct (K2 (AA A)); auto.
Qed.

(** What a history of successful calls gives. *)
Lemma history_sound : forall S I (D : Decoder S I) fmt bz s ops s' acc items,
  sound_from D fmt true bz s [] -> history D s ops s' acc items ->
  sound_from D fmt true bz s' acc /\ Forall (fun wi => fmt (fst wi) (snd wi)) items.
Proof.
  intros S I D fmt bz s ops s' acc items H0 H. pose proof (sound_closed D fmt true bz) as CL.
  induction H; auto.
  - destruct IHhistory as [A B]. split; auto. eapply (sd_decode CL); eauto.
  - destruct IHhistory as [A B]. destruct (sd_finish CL A H1) as [F K]. split; [apply K; auto|].
    apply Forall_app; auto.
Qed.
(** For decoders that can be used only once: the first item. *)
Lemma history_sound_once : forall S I (D : Decoder S I) fmt again bz s ops s' acc items,
  sound_from D fmt again bz s [] -> history D s ops s' acc items ->
  (items = [] -> sound_from D fmt again bz s' acc) /\
  (forall wi l, items = wi :: l -> fmt (fst wi) (snd wi)).
Proof.
  intros S I D fmt again bz s ops s' acc items H0 H. pose proof (sound_closed D fmt again bz) as CL.
  induction H.
  - split; auto. discriminate.
  - destruct IHhistory as [A B]. split; auto. intros E. eapply (sd_decode CL); eauto.
  - destruct IHhistory as [A B]. split; [destruct items; discriminate|].
    intros wi l E. destruct items as [|x items].
    + destruct (sd_finish CL (A eq_refl) H1) as [F K]. injection E as <- <-. exact F.
    + injection E as <- <-. eauto.
Qed.

(** ** Primitives *)
Definition copy_H (n : nat) (st : CopyDec (list byte)) (acc : list byte) : Prop :=
  length (cd_bytes st) = n /\ cd_off st <= n /\ firstn (cd_off st) (cd_bytes st) = acc.

Lemma overwrite_firstn : forall A (b src : list A) off, off + length src <= length b ->
  firstn (off + length src) (overwrite b off src) = firstn off b ++ src /\
  length (overwrite b off src) = length b.
Proof.
  intros A b src off L. unfold overwrite. split.
  - rewrite app_assoc. rewrite firstn_app.
    assert (E : length (firstn off b ++ src) = off + length src) by (rewrite app_length, firstn_length; lia).
    rewrite E, Nat.sub_diag. cbn. rewrite app_nil_r. apply firstn_all2. lia.
  - rewrite !app_length, firstn_length, skipn_length. lia.
Qed.

Lemma copy_sound : forall n s acc, copy_H n s acc ->
  sound_from (copy_decoder vec_box) (fun w b => w = b /\ length b = n) true (negb (n =? 0)) s acc.
Proof.
  intros n s acc h. exists (copy_H n); split; auto. clear. constructor.
  - intros [b off] acc fuel buf e s' m (L & O & E) id. cbn in L, O, E, id |- *. unfold copy_decode; cbn.
    rewrite usize_sub_ok by lia.
    set (k := Nat.min (length buf) (length b - off)).
    assert (K : length (firstn k buf) = k) by (rewrite firstn_length; lia).
    destruct (@overwrite_firstn _ b (firstn k buf) off) as [A B]; [rewrite K; lia|]. rewrite K in A.
    unfold overwrite in A, B.     destruct (_ && _); intros [= <- <-]. split; [lia|]. repeat split; cbn [cd_bytes cd_off bx_put vec_box]; [congruence|lia|congruence].
  - intros [b off] acc s' i (L & O & E). cbn in L, O, E |- *. unfold copy_finish; cbn.
    destruct (off =? length b) eqn:Q; intros [= <- <-]. cbn.
    assert (off = length b) by lia. subst off. rewrite firstn_all in E. repeat split; auto; cbn; try lia.
    intros N0. destruct b; cbn in *; [subst n; discriminate|reflexivity].
Qed.
Lemma copy_H_new : forall n, copy_H n (copy_dec_new (repeat x00 n)) [].
Proof. intros; repeat split; cbn; try lia. apply repeat_length. Qed.

Lemma finish_map_sound : forall S I T (D : Decoder S I) (D' : Decoder S T) (fmt : format I) (G : format T) a b s acc,
  (forall fuel s buf e s' n, dec_decode D' fuel s buf e = (s', Ok n) -> dec_decode D fuel s buf e = (s', Ok n)) ->
  (forall s, dec_idle D' s = dec_idle D s) ->
  (forall s s' t, dec_finish D' s = (s', Ok t) -> exists i, dec_finish D s = (s', Ok i) /\ forall w, fmt w i -> G w t) ->
  sound_from D fmt a b s acc -> sound_from D' G a b s acc.
Proof.
  intros S I T D D' fmt G a b s acc HD HI HF (H & [H1 H2] & h). exists H; split; auto. constructor.
  - intros. eapply H1; eauto.
  - intros s0 acc0 s' t h0 E. destruct (HF _ _ _ E) as (i & E' & K). destruct (H2 _ _ _ _ h0 E') as [F Ag].
    split; auto. intros A. rewrite HI. auto.
Qed.

Lemma map_sound : forall S I T (D : Decoder S I) (f : I -> T) (fmt : format I) (G : format T) a b s acc,
  sound_from D fmt a b s acc -> (forall w i, fmt w i -> G w (f i)) ->
  sound_from (map_decoder D f) G a b s acc.
Proof.
  intros. eapply finish_map_sound with (D := D); [now auto|now auto| |eassumption]. cbn. intros s0 s' t E.
  destruct (dec_finish D s0) as [s1 [i| | |]]; cbn in E; try discriminate. injection E as <- <-. eauto.
Qed.
Lemma try_map_sound : forall S I T (D : Decoder S I) (f : I -> T + ErrorKind) (fmt : format I) (G : format T) a b s acc,
  sound_from D fmt a b s acc -> (forall w i t, fmt w i -> f i = inl t -> G w t) ->
  sound_from (try_map_decoder D f) G a b s acc.
Proof.
  intros. eapply finish_map_sound with (D := D); [now auto|now auto| |eassumption]. cbn. intros s0 s' t E.
  destruct (dec_finish D s0) as [s1 [i| | |]]; cbn in E; try discriminate.
  destruct (f i) eqn:F; [|discriminate]. injection E as <- <-. exists i. eauto.
Qed.
Lemma map_err_sound : forall S I (D : Decoder S I) f fmt a b s acc,
  sound_from D fmt a b s acc -> sound_from (map_err_decoder D f) fmt a b s acc.
Proof.
  intros S I D f fmt a b s acc H. eapply finish_map_sound with (D := D); [|now auto| |eassumption]; cbn.
  - intros fuel s0 buf e s' n. destruct (dec_decode D fuel s0 buf e) as [s1 [k| | |]]; cbn; congruence.
  - intros s0 s' t. destruct (dec_finish D s0) as [s1 [k| | |]]; cbn; try congruence.
    intros [= <- <-]. eauto.
Qed.
Lemma utf8_sound : forall S (D : Decoder S (list byte)) (fmt : format (list byte)) (G : format (list N)) a b s acc,
  sound_from D fmt a b s acc -> (forall w l t, fmt w l -> utf8 t l -> G w t) ->
  sound_from (utf8_decoder D) G a b s acc.
Proof.
  intros. eapply finish_map_sound with (D := D); [now auto|now auto| |eassumption]. cbn. intros s0 s' t E.
  destruct (dec_finish D s0) as [s1 [i| | |]]; cbn in E; try discriminate.
  destruct (str_from_utf8 i) eqn:F; [|discriminate]. injection E as <- <-. exists i. split; auto.
  intros w h. eapply H0; eauto. now apply from_utf8_sound.
Qed.
Lemma num_sound : forall T (item : list byte -> T) n (G : format T) s acc, copy_H n s acc ->
  (forall w, length w = n -> G w (item w)) ->
  sound_from (num_decoder item) G true (negb (n =? 0)) s acc.
Proof.
  intros. eapply finish_map_sound with (D := copy_decoder vec_box); [..|eapply copy_sound; eauto]; auto.
  cbn. intros s0 s' t E.
  destruct (copy_finish vec_box s0) as [s1 [i| | |]]; cbn in E; try discriminate.
  injection E as <- <-. exists i; split; auto. intros w [-> L]. auto.
Qed.

(** BytesDecoder *)
Definition bytes_H (n : nat) (st : BytesDec (list byte)) (acc : list byte) : Prop :=
  exists b, bd_bytes st = Some b /\ copy_H n (mkCopyDec b (bd_off st)) acc.
Lemma bytes_sound : forall n s acc, bytes_H n s acc ->
  sound_from (bytes_decoder vec_box) (fun w b => w = b /\ length b = n) false false s acc.
Proof.
  intros n s acc h. exists (bytes_H n); split; auto. clear. constructor.
  - intros [o off] acc fuel buf e s' m (b & Eb & L & O & E) id. cbn in Eb, L, O, E, id |- *. subst o.
    unfold bytes_decode; cbn. unfold bytes_dec_exact in id; cbn in id.
    rewrite usize_sub_ok by lia.
    set (k := Nat.min (length buf) (length b - off)).
    assert (K : length (firstn k buf) = k) by (rewrite firstn_length; lia).
    destruct (@overwrite_firstn _ b (firstn k buf) off) as [A B]; [rewrite K; lia|]. rewrite K in A.
    unfold overwrite in A, B. destruct (_ && _); intros [= <- <-]. split; [lia|].
    eexists; split; [reflexivity|]. cbn [bd_off]. repeat split; cbn [cd_bytes cd_off]; [congruence|lia|congruence].
  - intros [o off] acc s' i (b & Eb & L & O & E). cbn in Eb, L, O, E |- *. subst o. unfold bytes_finish; cbn.
    unfold bytes_dec_exact; cbn.
    destruct (length b - off =? 0) eqn:Q; intros [= <- <-]. cbn.
    assert (off = length b) by lia. subst off. rewrite firstn_all in E. split; auto. discriminate.
Qed.

(** RemainingBytesDecoder *)
Definition rem_H (st : RemDec) (acc : list byte) : Prop := rm_buf st = acc.
Lemma rem_sound : forall s acc, rem_H s acc ->
  sound_from rem_decoder (fun w b => w = b) true true s acc.
Proof.
  intros s acc h. exists rem_H; split; auto. clear. unfold rem_H. constructor.
  - intros [b eos] acc fuel buf e s' n E id. cbn in E, id |- *. subst. unfold rem_decode; cbn.
    destruct (bc_to_u64 _); [destruct (_ <=? _)%N|]; intros [= <- <-]; cbn; rewrite firstn_all; auto.
  - intros [b eos] acc s' i E. cbn in E |- *. subst. unfold rem_finish; cbn. destruct eos; intros [= <- <-]; auto.
Qed.

(** NullDecoder *)
Lemma null_sound : forall s, sound_from null_decoder (fun w _ => w = []) true false s [].
Proof.
  intros s. exists (fun _ acc => acc = []). split; auto. constructor; cbn.
  - discriminate.
  - intros. split; auto.
Qed.

(** PaddingDecoder *)
Definition pad_H (b : byte) (st : PadDec) (acc : list byte) : Prop :=
  pd_expected st = Some b /\ acc = repeat b (length acc).
Lemma pad_sound : forall b s acc, pad_H b s acc ->
  sound_from pad_decoder (fun w _ => w = repeat b (length w)) true true s acc.
Proof.
  intros b s acc h. exists (pad_H b); split; auto. clear. unfold pad_H. constructor.
  - intros [o eos] acc fuel buf e s' n (Eb & E) id. cbn in Eb, id |- *. subst. unfold pad_decode; cbn.
    destruct (forallb _ buf) eqn:Q; intros [= <- <-]. split; auto. cbn. split; auto.
    rewrite firstn_all. rewrite app_length, repeat_app, <- E. f_equal.
    clear -Q. induction buf; cbn in *; auto. apply andb_prop in Q. destruct Q as [Q1 Q2].
    apply Byte.byte_dec_bl in Q1. subst. f_equal; auto.
  - intros [o eos] acc s' i (Eb & E). cbn in Eb |- *. destruct eos; intros [= <- <-]; auto.
Qed.

(** MonolithicDecoder *)
Definition mono_H {I} (f : MonoDecode I) (st : MonoDec I) (acc : list byte) : Prop :=
  match md_item st with
  | None => md_buf st = acc
  | Some a => md_buf st = [] /\
      exists tail r, f (acc ++ tail) = (inl a, r) /\ (tail = [] \/ r <= length acc)
  end.
Lemma mono_sound : forall I (f : MonoDecode I) s acc, mono_H f s acc ->
  sound_from (mono_decoder f)
    (fun w a => exists tail r, f (w ++ tail) = (inl a, r) /\ (tail = [] \/ r <= length w)) true true s acc.
Proof.
  intros I f s acc h. exists (mono_H f); split; auto. clear. constructor.
  - intros [o b] acc fuel buf e s' n H id. cbn in id |- *. destruct o; [discriminate|].
    unfold mono_H in H; cbn in H. subst b. unfold mono_decode; cbn.
    destruct (is_reached e).
    + destruct (f (acc ++ buf)) as [[a|k] r] eqn:F; intros [= <- <-]. split; [lia|].
      unfold mono_H; cbn. split; auto.
      exists (skipn (Nat.min (length buf) (r - length acc)) buf), r.
      rewrite <- app_assoc, firstn_skipn. split; auto.
      destruct (le_lt_dec (length buf) (r - length acc)).
      * left. apply skipn_all2. lia.
      * right. rewrite app_length, firstn_length. lia.
    + intros [= <- <-]. split; auto. unfold mono_H; cbn. now rewrite firstn_all.
  - intros [o b] acc s' i H. unfold mono_H in H; cbn in H |- *. destruct o; intros [= <- <-].
    destruct H as [E H]. split; auto.
Qed.

(** Length *)
Lemma length_sound : forall S I (D : Decoder S I) F a b s acc n rem,
  sound_from D F a b s acc -> (len acc + rem = n)%N ->
  sound_from (length_decoder D) (fun w i => F w i /\ len w = n) a b (mkLength s n rem) acc.
Proof.
  intros S I D F a b s acc n rem H L.
  exists (fun st acc => sound_from D F a b (ln_inner st) acc /\ ln_expected st = n /\
                        (len acc + ln_remaining st = n)%N). split; [|auto]. clear.
  pose proof (sound_closed D F a b) as CL. constructor.
  - intros [s ex rm] acc fuel buf e s' k (H & E & L) id. cbn in H, E, L, id |- *. subst ex.
    unfold length_decode; cbn.
    set (limit := N.min (len buf) rm).
    assert (G : forall s1 r, dec_decode D fuel s (firstn (N.to_nat limit) buf)
          (eos_with_remaining (Finite (rm - limit))) = (s1, r) ->
        match r with
        | Ok size => match u64_sub rm (N.of_nat size) with
             | Some rem => (mkLength s1 n rem, Ok size)
             | None => (mkLength s1 n rm, Panic) end
        | r' => (mkLength s1 n rm, r') end = (s', Ok k) ->
        k <= length buf /\ sound_from D F a b (ln_inner s') (acc ++ firstn k buf) /\ ln_expected s' = n /\
         (len (acc ++ firstn k buf) + ln_remaining s' = n)%N).
    { intros s1 [size| | |] E1; try discriminate. destruct (sd_decode CL H id E1) as [K1 K2].
      rewrite firstn_length in K1. unfold u64_sub. destruct (N.leb_spec (N.of_nat size) rm); [|discriminate].
      intros [= <- <-]. cbn. split; [lia|]. rewrite firstn_firstn in K2.
      replace (Nat.min size (N.to_nat limit)) with size in K2 by lia. split; auto. split; auto.
      rewrite len_app. unfold len in *. rewrite firstn_length. lia. }
    destruct (dec_decode D fuel s (firstn (N.to_nat limit) buf) _) as [s1 r]. specialize (G _ _ eq_refl).
    destruct (bc_to_u64 _); auto. destruct (u64_add _ _); try discriminate. destruct (_ <=? _)%N; try discriminate. auto.
  - intros [s ex rm] acc s' i (H & E & L). cbn in H, E, L |- *. subst ex.
    destruct (N.eqb_spec rm 0); [|discriminate]. destruct (dec_finish D s) as [s1 r] eqn:F1.
    intros [= <- ->]. destruct (sd_finish CL H F1) as [K1 K2]. split; [split; [auto|lia]|].
    intros A. destruct (K2 A). cbn. auto.
Qed.

(** MaxBytes *)
Lemma max_sound : forall S I (D : Decoder S I) F a b s n,
  sound_from D F a b s [] ->
  sound_from (max_decoder D) (fun w i => F w i /\ (len w <= n)%N) a b (max_new s n) [].
Proof.
  intros S I D F a b s n H.
  exists (fun st acc => sound_from D F a b (mx_inner st) acc /\ mx_max st = n /\
                        mx_consumed st = len acc /\ (len acc <= n)%N).
  split; [|cbn; repeat split; auto; lia]. clear.
  pose proof (sound_closed D F a b) as CL. constructor.
  - intros [s c mx] acc fuel buf e s' k (H & E & L & M) id. cbn in H, E, L, id |- *. subst mx c.
    unfold max_decode. destruct (max_check _ buf e) eqn:C; try discriminate. cbn [mx_inner mx_consumed mx_max].
    assert (B : (len buf + len acc <= n)%N).
    { clear -C M. unfold max_check in C; cbn in C. unfold u64_sub, u64_add in C.
      destruct e; try discriminate; cbn in C.
      - destruct (N.leb_spec (len acc) n); try discriminate.
        destruct (N.leb_spec (len buf + n0) u64_max); try discriminate.
        destruct (N.leb_spec (len buf + n0) (n - len acc)); try discriminate. lia.
      - destruct (N.leb_spec (len acc) n); try discriminate.
        destruct (N.leb_spec (len buf) (n - len acc)); try discriminate. lia. }
    destruct (dec_decode D fuel s buf e) as [s1 [size| | |]] eqn:E1; try discriminate.
    destruct (sd_decode CL H id E1) as [K1 K2].
    unfold u64_add. destruct (N.leb_spec (len acc + N.of_nat size) u64_max); [|discriminate].
    intros [= <- <-]. split; auto. cbn. split; auto. split; auto.
    rewrite len_app. unfold len in *. rewrite firstn_length. lia.
  - intros [s c mx] acc s' i (H & E & L & M). cbn in H, E, L |- *. subst mx c.
    destruct (dec_finish D s) as [s1 r] eqn:F1. intros [= <- ->].
    destruct (sd_finish CL H F1) as [K1 K2]. split; [split; auto|].
    intros A. destruct (K2 A). cbn. repeat split; auto. lia.
Qed.

(** Omittable *)
Lemma omit_true_sound : forall S I (D : Decoder S I) s,
  sound_from (omit_decoder D) (fun w o => o = None /\ w = []) true false (mkOmit s true) [].
Proof.
  intros S I D s. exists (fun st acc => om_omit st = true /\ acc = []). split; auto. constructor.
  - intros [s0 b0] acc fuel buf e s' n [E ->] id. cbn in *. subst. discriminate.
  - intros [s0 b0] acc s' n [E ->]. cbn in *. subst. intros [= <- <-]. repeat split; auto.
Qed.
Lemma omit_false_sound : forall S I (D : Decoder S I) F a b s acc,
  sound_from D F a b s acc ->
  sound_from (omit_decoder D) (fun w o => exists i, o = Some i /\ F w i) a b (mkOmit s false) acc.
Proof.
  intros S I D F a b s acc H.
  exists (fun st acc => om_omit st = false /\ sound_from D F a b (om_inner st) acc).
  split; auto. clear. pose proof (sound_closed D F a b) as CL. constructor.
  - intros [s0 b0] acc fuel buf e s' n [E H] id. cbn in *. subst. cbn in id.
    destruct (dec_decode D fuel s0 buf e) as [s1 r] eqn:E1. intros [= <- ->].
    destruct (sd_decode CL H id E1); auto.
  - intros [s0 b0] acc s' n [E H]. cbn in *. subst.
    destruct (dec_finish D s0) as [s1 [i| | |]] eqn:E1; cbn; try discriminate. intros [= <- <-].
    destruct (sd_finish CL H E1) as [K1 K2]. split; eauto. intros A. destruct (K2 A). auto.
Qed.

(** Peekable *)
Lemma peek_sound : forall S I (D : Decoder S I) F a s,
  sound_from D F a true s [] -> dec_idle D s = false ->
  sound_from (peek_decoder D) F a true (peek_new s) [].
Proof.
  intros S I D F a s H id0.
  exists (fun st acc => match pk_item st with
    | None => sound_from D F a true (pk_inner st) acc /\ dec_idle D (pk_inner st) = false
    | Some i => F acc i /\ (a = true -> sound_from D F a true (pk_inner st) [] /\
                                        dec_idle D (pk_inner st) = false) end).
  split; [|cbn; auto]. clear. pose proof (sound_closed D F a true) as CL. constructor.
  - intros [s0 [i|]] acc fuel buf e s' n H id; [discriminate|]. cbn in H. destruct H as [H id1].
    cbn. unfold peek_decode; cbn. destruct (dec_decode D fuel s0 buf e) as [s1 [size| | |]] eqn:E1; try discriminate.
    destruct (sd_decode CL H id1 E1) as [K1 K2].
    destruct (dec_idle D s1) eqn:id2.
    + destruct (dec_finish D s1) as [s2 [i| | |]] eqn:E2; try discriminate. intros [= <- <-].
      split; auto. cbn. destruct (sd_finish CL K2 E2) as [K3 K4]. split; auto.
      intros A. destruct (K4 A); auto.
    + intros [= <- <-]. split; auto. cbn; auto.
  - intros [s0 [i|]] acc s' n H; cbn in H |- *; [|discriminate]. intros [= <- <-].
    destruct H as [H1 H2]. split; auto. intros A; destruct (H2 A); cbn; auto.
Qed.

(** MaybeEos *)
Lemma maybe_sound : forall S I (D : Decoder S I) F a b s,
  sound_from D F a b s [] -> sound_from (maybe_decoder D) F a b (maybe_new s) [].
Proof.
  intros S I D F a b s H. exists (fun st acc => sound_from D F a b (my_inner st) acc).
  split; auto. clear. pose proof (sound_closed D F a b) as CL. constructor.
  - intros [s0 st] acc fuel buf e s' n H id. cbn in H, id |- *. unfold maybe_decode; cbn.
    match goal with |- context [dec_decode D fuel s0 buf ?x] =>
      destruct (dec_decode D fuel s0 buf x) as [s1 [size| | |]] eqn:E1; try discriminate end.
    intros [= <- <-]. exact (sd_decode CL H id E1).
  - intros [s0 st] acc s' n H. cbn in H |- *. destruct (dec_finish D s0) as [s1 r] eqn:E1. intros [= <- ->].
    exact (sd_finish CL H E1).
Qed.

(** The macro [bytecodec_try_decode!] *)
Lemma try_sound : forall S I (D : Decoder S I) F a b s acc fuel off buf e,
  sound_from D F a b s acc ->
  match try_decode D fuel s off buf e with
  | TGo s' off' => off <= off' /\ dec_idle D s' = true /\ (off' <= length buf \/ off' = off) /\
      sound_from D F a b s' (acc ++ firstn (off' - off) (skipn off buf))
  | TRet s' (Ok off') => off <= off' /\ dec_idle D s' = false /\ off' <= length buf /\
      sound_from D F a b s' (acc ++ firstn (off' - off) (skipn off buf))
  | _ => True
  end.
Proof.
  intros S I D F a b s acc fuel off buf e H. unfold try_decode.
  destruct (dec_idle D s) eqn:id.
  - rewrite Nat.sub_diag. cbn. rewrite app_nil_r. auto.
  - unfold slice_from. destruct (Nat.leb_spec off (length buf)); auto.
    destruct (dec_decode D fuel s (skipn off buf) e) as [s1 [n| | |]] eqn:E; auto.
    destruct (sd_decode (sound_closed D F a b) H id E) as [K1 K2].
    rewrite skipn_length in K1.
    destruct (dec_idle D s1) eqn:id1; replace (off + n - off) with n by lia; repeat split; auto; lia.
Qed.

Lemma firstn_plus : forall A a b (l : list A), firstn (a + b) l = firstn a l ++ firstn b (skipn a l).
Proof. induction a; intros b [|x l]; cbn; auto. - now rewrite firstn_nil. - now rewrite IHa. Qed.

(** Pairs, and tuples *)
Lemma pair_sound : forall S0 S1 I0 I1 (D0 : Decoder S0 I0) (D1 : Decoder S1 I1) F0 F1 a0 b0 a1 b1 s0 s1,
  sound_from D0 F0 a0 b0 s0 [] -> sound_from D1 F1 a1 b1 s1 [] ->
  sound_from (tuple2_decoder D0 D1)
    (fun w i => exists w0 w1, w = w0 ++ w1 /\ F0 w0 (fst i) /\ F1 w1 (snd i))
    (a0 && a1) (b0 || b1) (s0, s1) [].
Proof.
  intros S0 S1 I0 I1 D0 D1 F0 F1 a0 b0 a1 b1 s0 s1 H0 H1.
  exists (fun st acc => exists w0 w1, acc = w0 ++ w1 /\ sound_from D0 F0 a0 b0 (fst st) w0 /\
             sound_from D1 F1 a1 b1 (snd st) w1 /\ (dec_idle D0 (fst st) = false -> w1 = [])).
  split; [|exists [], []; cbn; auto]. clear.
  pose proof (sound_closed D0 F0 a0 b0) as CL0. pose proof (sound_closed D1 F1 a1 b1) as CL1. constructor.
  - intros [s0 s1] acc fuel buf e s' n (w0 & w1 & -> & H0 & H1 & W) id. cbn in H0, H1, W.
    unfold tuple2_decoder, tuple_of_dec_parts, dec_decode, dec_parts2, dp_snoc, dp_decode, dp_one. cbn [fst snd].
    assert (T0 := try_sound fuel 0 buf e H0). pose proof H0 as H0'.
    destruct (try_decode D0 fuel s0 0 buf e) as [t0 o0|t0 [o0| | |]] eqn:Q0; try discriminate.
    + destruct T0 as (_ & id0 & L0 & K0). rewrite Nat.sub_0_r in K0. cbn [skipn] in K0.
      assert (W' : w1 = [] \/ t0 = s0 /\ o0 = 0).
      { destruct (dec_idle D0 s0) eqn:idx; auto. right. unfold try_decode in Q0. rewrite idx in Q0.
        injection Q0 as <- <-. auto. }
      assert (T1 := try_sound fuel o0 buf e H1).
      assert (J : forall t1 o1, o0 <= o1 -> (o1 <= length buf \/ o1 = o0) ->
        sound_from D1 F1 a1 b1 t1 (w1 ++ firstn (o1 - o0) (skipn o0 buf)) ->
        o1 <= length buf /\
        exists v0 v1, (w0 ++ w1) ++ firstn o1 buf = v0 ++ v1 /\
          sound_from D0 F0 a0 b0 t0 v0 /\ sound_from D1 F1 a1 b1 t1 v1 /\
          (dec_idle D0 t0 = false -> v1 = [])).
      { intros t1 o1 LE LB K1. split; [lia|].
        exists (w0 ++ firstn o0 buf), (w1 ++ firstn (o1 - o0) (skipn o0 buf)).
        split; [|rewrite id0; auto; split; auto; split; auto; discriminate].
        destruct W' as [->|[-> ->]].
        - rewrite app_nil_r, <- !app_assoc. f_equal. cbn.
          replace o1 with (o0 + (o1 - o0)) at 1 by lia. now rewrite firstn_plus.
        - cbn. now rewrite app_nil_r, Nat.sub_0_r, <- app_assoc. }
      destruct (try_decode D1 fuel s1 o0 buf e) as [t1 o1|t1 [o1| | |]]; try discriminate.
      * destruct T1 as (L1 & _ & L1' & K1). intros [= <- <-]. cbn [fst snd]. apply J; auto.
      * destruct T1 as (L1 & _ & L1' & K1). intros [= <- <-]. cbn [fst snd]. apply J; auto.
    + destruct T0 as (_ & id0 & L0 & K0). rewrite Nat.sub_0_r in K0. cbn [skipn] in K0.
      assert (W' : w1 = []).
      { destruct (dec_idle D0 s0) eqn:idx; auto. unfold try_decode in Q0. rewrite idx in Q0. discriminate. }
      subst w1. intros [= <- <-]. split; auto. cbn [fst snd].
      exists (w0 ++ firstn o0 buf), []. rewrite !app_nil_r. auto.
  - intros [s0 s1] acc s' [i0 i1] (w0 & w1 & -> & H0 & H1 & W). cbn in H0, H1 |- *.
    destruct (dec_finish D0 s0) as [t0 [j0| | |]] eqn:E0; cbn; try discriminate.
    destruct (dec_finish D1 s1) as [t1 [j1| | |]] eqn:E1; cbn; try discriminate.
    intros [= <- -> ->]. destruct (sd_finish CL0 H0 E0) as [K0 A0]. destruct (sd_finish CL1 H1 E1) as [K1 A1].
    split; [exists w0, w1; auto|]. intros A. apply andb_prop in A. destruct A as [A A']. 
    destruct (A0 A) as [A2 A3]. destruct (A1 A') as [A4 A5].
    split; [exists [], []; auto|]. intros B. apply orb_prop in B. destruct B as [B|B].
    + cbn; now rewrite A3.
    + cbn. rewrite A5; auto. apply andb_false_r.
Qed.
Lemma sound_sim : forall S I (D D' : Decoder S I) F a b s acc,
  dec_sim D D' -> sound_from D F a b s acc -> sound_from D' F a b s acc.
Proof.
  intros S I D D' F a b s acc (E1 & E2 & E3 & E4) H. eapply finish_map_sound with (D := D); [..|exact H].
  - intros. now rewrite E1.
  - intros. auto.
  - intros s0 s' t E. rewrite <- E2 in E. eauto.
Qed.

(** AndThen *)
Lemma and_then_sound : forall S0 S1 I0 I1 (D0 : Decoder S0 I0) (D1 : Decoder S1 I1) (f : I0 -> S1)
    F0 (F1 : I0 -> format I1) a0 b0 a1 b1 s0,
  sound_from D0 F0 a0 b0 s0 [] -> (forall i0, sound_from D1 (F1 i0) a1 b1 (f i0) []) ->
  sound_from (and_then_decoder D0 D1 f)
    (fun w i => exists w0 w1 i0, w = w0 ++ w1 /\ F0 w0 i0 /\ F1 i0 w1 i) a0 true (and_then_new s0) [].
Proof.
  intros S0 S1 I0 I1 D0 D1 f F0 F1 a0 b0 a1 b1 s0 H0 H1.
  exists (fun st acc => match at_inner1 st with
    | None => sound_from D0 F0 a0 b0 (at_inner0 st) acc
    | Some s1 => exists w0 w1 i0, acc = w0 ++ w1 /\ F0 w0 i0 /\
        (a0 = true -> sound_from D0 F0 a0 b0 (at_inner0 st) []) /\ sound_from D1 (F1 i0) a1 b1 s1 w1
    end).
  split; [|exact H0]. clear H0.
  pose proof (sound_closed D0 F0 a0 b0) as CL0. constructor.
  - intros [t0 o1] acc fuel buf e s' n H id. cbn [dec_decode and_then_decoder].
    unfold and_then_decode; cbn [at_inner0 at_inner1].
    assert (B : forall u0 u1 i0 w0 w1 off, sound_from D1 (F1 i0) a1 b1 u1 w1 -> F0 w0 i0 ->
      (a0 = true -> sound_from D0 F0 a0 b0 u0 []) -> w0 ++ w1 = acc ++ firstn off buf -> off <= length buf ->
      and_then_body D1 fuel u0 u1 off buf e = (s', Ok n) ->
      n <= length buf /\ match at_inner1 s' with
        | None => sound_from D0 F0 a0 b0 (at_inner0 s') (acc ++ firstn n buf)
        | Some s1 => exists w0 w1 i0, acc ++ firstn n buf = w0 ++ w1 /\ F0 w0 i0 /\
            (a0 = true -> sound_from D0 F0 a0 b0 (at_inner0 s') []) /\ sound_from D1 (F1 i0) a1 b1 s1 w1
        end).
    { intros u0 u1 i0 w0 w1 off K1 K0 KA EQ LB. unfold and_then_body.
      assert (T := try_sound fuel off buf e K1).
      assert (J : forall o1, off <= o1 -> acc ++ firstn o1 buf = w0 ++ (w1 ++ firstn (o1 - off) (skipn off buf))).
      { intros o2 LE. rewrite app_assoc, EQ, <- app_assoc. f_equal.
        replace o2 with (off + (o2 - off)) at 1 by lia. apply firstn_plus. }
      destruct (try_decode D1 fuel u1 off buf e) as [t1 off1|t1 [off1| | |]]; try discriminate;
        intros [= <- <-]; cbn [at_inner1 at_inner0].
      - destruct T as (L & _ & LL & K). split; [lia|].
        exists w0, (w1 ++ firstn (off1 - off) (skipn off buf)), i0. auto.
      - destruct T as (L & _ & LL & K). split; [lia|].
        exists w0, (w1 ++ firstn (off1 - off) (skipn off buf)), i0. auto. }
    destruct o1 as [s1|]; cbn [at_inner1 at_inner0] in H.
    + destruct H as (w0 & w1 & i0 & -> & K0 & KA & K1). intros E.
      eapply B; [exact K1|exact K0|exact KA|..|exact E]; [cbn; now rewrite app_nil_r|lia].
    + assert (T := try_sound fuel 0 buf e H).
      destruct (try_decode D0 fuel t0 0 buf e) as [u0 off|u0 [off| | |]]; try discriminate.
      * destruct T as (_ & _ & L & K). rewrite Nat.sub_0_r in K. cbn [skipn] in K.
        destruct (dec_finish D0 u0) as [v0 [i0| | |]] eqn:E0; try discriminate.
        destruct (sd_finish CL0 K E0) as [K0 KA]. intros E.
        eapply B; [apply H1|exact K0| | |..|exact E]; [intros A; now apply KA|now rewrite app_nil_r|lia].
      * destruct T as (_ & _ & L & K). rewrite Nat.sub_0_r in K. intros [= <- <-]. auto.
  - intros [t0 [s1|]] acc s' i H; cbn in H |- *; [|discriminate].
    destruct H as (w0 & w1 & i0 & -> & K0 & KA & K1).
    destruct (dec_finish D1 s1) as [u1 r] eqn:E1; cbn. intros [= <- ->].
    destruct (sd_finish (sound_closed D1 (F1 i0) a1 b1) K1 E1) as [K _]. cbn.
    split; [exists w0, w1, i0; auto|]. auto.
Qed.

Lemma sequence_snoc : forall A (F : format A) w l v i,
  sequence_of F w l -> F v i -> sequence_of F (w ++ v) (l ++ [i]).
Proof.
  intros A F w l v i (ws & -> & K) f. exists (ws ++ [v]). rewrite concat_app. cbn. rewrite app_nil_r.
  split; auto. apply Forall2_app; auto.
Qed.

(** Collect: items may be dropped at the end, and the decoder may then keep their bytes. *)
Lemma collect_loop_sound : forall S I (D : Decoder S I) F b base fuel buf e n s items off w0 w1 st' k,
  sound_from D F true b s w1 -> sequence_of F w0 items -> off <= length buf ->
  w0 ++ w1 = base ++ firstn off buf ->
  collect_loop D n fuel s items off buf e = (st', Ok k) ->
  k <= length buf /\ exists v0 v1, base ++ firstn k buf = v0 ++ v1 /\
    sequence_of F v0 (cl_items st') /\ sound_from D F true b (cl_inner st') v1.
Proof.
  intros S I D F b base fuel buf e. pose proof (sound_closed D F true b) as CL.
  induction n; intros s items off w0 w1 st' k H Sq L EQ; cbn [collect_loop].
  - destruct (off <? length buf); try discriminate. intros [= <- <-]. split; auto. exists w0, w1; auto.
  - destruct (off <? length buf); [|intros [= <- <-]; split; auto; exists w0, w1; auto].
    assert (J : forall o1, off <= o1 -> base ++ firstn o1 buf = w0 ++ (w1 ++ firstn (o1 - off) (skipn off buf))).
    { intros o2 LE. rewrite app_assoc, EQ, <- app_assoc. f_equal.
      replace o2 with (off + (o2 - off)) at 1 by lia. apply firstn_plus. }
    assert (T := try_sound fuel off buf e H).
    destruct (try_decode D fuel s off buf e) as [t1 off1|t1 [off1| | |]]; try discriminate.
    + destruct T as (LE & _ & LL & K).
      destruct (dec_finish D t1) as [t2 [i| | |]] eqn:E1; try discriminate.
      destruct (sd_finish CL K E1) as [Fi Ag]. destruct (Ag eq_refl) as [K2 _].
      apply IHn with (w0 := w0 ++ (w1 ++ firstn (off1 - off) (skipn off buf))) (w1 := []); auto.
      * now apply sequence_snoc.
      * lia.
      * rewrite app_nil_r. symmetry; auto.
    + destruct T as (LE & _ & LL & K). intros [= <- <-]. split; [lia|]. eexists; eexists; split; [now apply J|]. auto.
Qed.
Lemma collect_sound : forall S I (D : Decoder S I) F b s,
  sound_from D F true b s [] ->
  sound_from (collect_decoder D) (fun w l => exists w0 tail, w = w0 ++ tail /\ sequence_of F w0 l)
    false false (collect_new s) [].
Proof.
  intros S I D F b s H.
  exists (fun st acc => exists w0 w1, acc = w0 ++ w1 /\ sequence_of F w0 (cl_items st) /\
                        sound_from D F true b (cl_inner st) w1).
  split; [|exists [], []; cbn; repeat split; auto; exists []; auto]. clear. constructor.
  - intros [s it eos] acc fuel buf e s' n (w0 & w1 & -> & Sq & H) id. cbn in Sq, H, id |- *. subst eos.
    intros E. eapply collect_loop_sound; [exact H|exact Sq|..|exact E]; [lia|cbn; now rewrite app_nil_r].
  - intros [s it eos] acc s' l (w0 & w1 & -> & Sq & H). cbn in Sq, H |- *.
    destruct eos; intros [= <- <-]. split; [eauto|discriminate].
Qed.

(** CollectN *)
Lemma collectn_loop_sound : forall S I (D : Decoder S I) F b base fuel buf e rm s items off w0 w1 st' k,
  sound_from D F true b s w1 -> sequence_of F w0 items -> off <= length buf ->
  w0 ++ w1 = base ++ firstn off buf -> (rm = 0 -> w1 = []) ->
  collectn_loop D fuel rm s items off buf e = (st', Ok k) ->
  k <= length buf /\ exists v0 v1, base ++ firstn k buf = v0 ++ v1 /\
    sequence_of F v0 (cn_items st') /\ sound_from D F true b (cn_inner st') v1 /\
    length items + rm = length (cn_items st') + cn_remaining st' /\ (cn_remaining st' = 0 -> v1 = []).
Proof.
  intros S I D F b base fuel buf e. pose proof (sound_closed D F true b) as CL.
  induction rm; intros s items off w0 w1 st' k H Sq L EQ Z; cbn [collectn_loop].
  - cbn [negb Nat.eqb andb]. intros [= <- <-]. split; auto. exists w0, w1; auto.
  - destruct (off <? length buf).
    2: { destruct (_ && _); intros [= <- <-]. split; auto. exists w0, w1; auto. }
    assert (J : forall o1, off <= o1 -> base ++ firstn o1 buf = w0 ++ (w1 ++ firstn (o1 - off) (skipn off buf))).
    { intros o2 LE. rewrite app_assoc, EQ, <- app_assoc. f_equal.
      replace o2 with (off + (o2 - off)) at 1 by lia. apply firstn_plus. }
    assert (T := try_sound fuel off buf e H).
    destruct (try_decode D fuel s off buf e) as [t1 off1|t1 [off1| | |]]; try discriminate.
    + destruct T as (LE & _ & LL & K).
      destruct (dec_finish D t1) as [t2 [i| | |]] eqn:E1; try discriminate.
      destruct (sd_finish CL K E1) as [Fi Ag]. destruct (Ag eq_refl) as [K2 _]. intros E.
      destruct (IHrm t2 (items ++ [i]) off1 (w0 ++ (w1 ++ firstn (off1 - off) (skipn off buf))) [] st' k)
        as (A & v0 & v1 & A1 & A2 & A3 & A4 & A5); auto.
      * now apply sequence_snoc.
      * lia.
      * rewrite app_nil_r. symmetry; auto.
      * split; auto. exists v0, v1; repeat split; auto. rewrite app_length in A4; cbn in A4. lia.
    + destruct T as (LE & _ & LL & K). intros [= <- <-]. split; [lia|].
      exists w0, (w1 ++ firstn (off1 - off) (skipn off buf)). cbn. repeat split; auto. discriminate.
Qed.
Lemma collectn_sound : forall S I (D : Decoder S I) F b s n,
  sound_from D F true b s [] ->
  sound_from (collectn_decoder D) (fun w l => sequence_of F w l /\ length l = n)
    false false (collectn_new s n) [].
Proof.
  intros S I D F b s n H.
  exists (fun st acc => exists w0 w1, acc = w0 ++ w1 /\ sequence_of F w0 (cn_items st) /\
                        sound_from D F true b (cn_inner st) w1 /\
                        length (cn_items st) + cn_remaining st = n /\ (cn_remaining st = 0 -> w1 = [])).
  split; [|exists [], []; cbn; repeat split; auto; exists []; auto]. clear. constructor.
  - intros [s rm it] acc fuel buf e s' k (w0 & w1 & -> & Sq & H & Le & Z) id. cbn in Sq, H, Le, Z, id |- *.
    intros E. destruct (@collectn_loop_sound _ _ D F b (w0 ++ w1) fuel buf e rm s it 0 w0 w1 s' k)
      as (A & v0 & v1 & A1 & A2 & A3 & A4 & A5); auto.
    + lia.
    + cbn; now rewrite app_nil_r.
    + split; auto. exists v0, v1; repeat split; auto. lia.
  - intros [s rm it] acc s' l (w0 & w1 & -> & Sq & H & Le & Z). cbn in Sq, H, Le, Z |- *.
    destruct (Nat.eqb_spec rm 0); intros [= <- <-]. rewrite Z, app_nil_r by auto.
    split; [split; auto; lia|discriminate].
Qed.

(** Numbers *)
Lemma as_signed_total : forall width u, 0 < width -> (u < 256 ^ N.of_nat width)%N ->
  twos_complement width (as_signed width u) u.
Proof.
  intros width u W B. pose proof (twos_pow W) as T. pose proof (pow256Z width) as Q. unfold as_signed, twos_complement.
  assert (P : Z.of_N (2 ^ (8 * N.of_nat width - 1)) = (2 ^ (8 * Z.of_nat width - 1))%Z).
  { rewrite N2Z.inj_pow. f_equal. lia. }
  destruct (N.ltb_spec u (2 ^ (8 * N.of_nat width - 1))); lia.
Qed.
Lemma unum_sound : forall k, sound_from (udec k) (fun w n => num_bytes k n w) true true (udec0 k) [].
Proof.
  intros k.
  assert (H : forall n item (G : format N), copy_H n (num_dec_new n) [] -> n <> 0 -> (forall w, length w = n -> G w (item w)) ->
     sound_from (num_decoder (T := N) item) G true true (num_dec_new n) []).
  { intros n item G A B C. eapply sound_sub; [eapply num_sound; eauto|auto..]. destruct n; [contradiction|reflexivity]. }
  destruct k; (apply H; [apply copy_H_new|discriminate|]); intros w L; (split; [exact L|]);
    symmetry; first [apply read_be_value|apply read_le_value].
Qed.
Lemma snum_sound : forall k, sound_from (sdec k)
  (fun w z => length w = swidth k /\ twos_complement (swidth k) z (svalue k w)) true true (sdec0 k) [].
Proof.
  intros k.
  assert (H : forall n item (G : format Z), copy_H n (num_dec_new n) [] -> n <> 0 -> (forall w, length w = n -> G w (item w)) ->
     sound_from (num_decoder (T := Z) item) G true true (num_dec_new n) []).
  { intros n item G A B C. eapply sound_sub; [eapply num_sound; eauto|auto..]. destruct n; [contradiction|reflexivity]. }
  destruct k; (apply H; [apply copy_H_new|discriminate|]); intros w L; (split; [exact L|]);
    first [rewrite read_be_value|rewrite read_le_value]; (apply as_signed_total; [cbn; lia|]);
    unfold svalue, swidth; rewrite <- L; first [apply be_value_lt|apply le_value_lt].
Qed.

(** ** Terms *)
Definition code_sound A (c : codec A) : Prop :=
  usable c -> sound_from (decoder c) (justifies c) (renews c) (busy c) (dec_fresh c) [] /\
              (busy c = true -> dec_idle (decoder c) (dec_fresh c) = false).
Definition part_sound A (p : parts A) : Prop :=
  pusable p -> parts_ok (psem_dec (psem p)) /\
  sound_from (tuple_of_dec_parts (psem_dec (psem p))) (pjustifies p) (prenews p) (pbusy p) (pdec0 (psem p)) [] /\
  (pbusy p = true -> dec_idle (tuple_of_dec_parts (psem_dec (psem p))) (pdec0 (psem p)) = false).

Lemma term_sound :
  (forall A (c : codec A), code_sound c) /\ (forall A (p : parts A), part_sound p).
Proof.
  apply codec_parts_ind; unfold code_sound, part_sound, decoder, dec_fresh; cbn.
  - intros k _. split; [apply unum_sound|]. intros _. destruct k; reflexivity.
  - intros k _. split; [apply snum_sound|]. intros _. destruct k; reflexivity.
  - intros _. split; [apply null_sound|discriminate].
  - intros n _. split; [apply copy_sound, copy_H_new|]. destruct n; auto.
  - intros n _. split.
    + eapply sound_sub; [apply (@bytes_sound n)|auto|auto|discriminate].
      exists (repeat x00 n). split; [reflexivity|]. apply copy_H_new.
    + destruct n; [discriminate|reflexivity].
  - intros _. split; [apply rem_sound; reflexivity|reflexivity].
  - intros _. split; [|reflexivity]. eapply utf8_sound; [apply rem_sound; reflexivity|]. intros w l t ->; auto.
  - intros n _. split; [|destruct n; auto]. eapply utf8_sound; [eapply copy_sound, copy_H_new|].
    intros w l t [-> L]; auto.
  - intros b n _. split; [|reflexivity].
    eapply sound_sub; [apply (@length_sound _ _ pad_decoder (fun w _ => w = repeat b (length w)) true true _ [] (N.of_nat n))|..]; auto.
    + apply pad_sound. split; reflexivity.
    + intros w i [E L]. unfold len in L. now replace n with (length w) by lia.
  - intros A f g _. split; [|reflexivity]. apply mono_sound. reflexivity.
  - intros A p IH U. destruct (IH U) as (_ & H). exact H.
  - intros A B f g c IH U. destruct (IH U) as [H B0]. split; auto. eapply map_sound; eauto.
  - intros A B f g c IH U. destruct (IH U) as [H B0]. split; auto. eapply try_map_sound; eauto.
  - intros A f g c IH U. destruct (IH U) as [H B0]. split; auto. now apply map_err_sound.
  - intros A omitted c IH U. destruct (IH U) as [H B0]. destruct omitted; cbn.
    + split; [|discriminate]. eapply sound_sub; [apply omit_true_sound|..]; auto. intros w i [-> ->]; auto.
    + split; auto. eapply sound_sub; [apply omit_false_sound; eassumption|..]; auto.
      intros w i (a & -> & K); auto.
  - intros A n c IH U. destruct (IH U) as [H B0]. split; auto. apply length_sound; auto.
  - intros A n c IH U. destruct (IH U) as [H B0]. split; auto. apply length_sound; auto.
  - intros A n c IH U. destruct (IH U) as [H B0]. split; auto. apply max_sound; auto.
  - intros A c IH [Bz U]. destruct (IH U) as [H B0]. rewrite Bz in H. split; auto. apply peek_sound; auto.
  - intros A c IH U. destruct (IH U) as [H B0]. split; auto. apply maybe_sound; auto.
  - intros A c IH U. destruct (IH U) as [H B0]. split; auto.
  - intros A c IH [Rn U]. destruct (IH U) as [H B0]. rewrite Rn in H. split; auto.
    eapply sound_sub; [eapply collect_sound; eassumption|..]; auto.
  - intros A n c IH [Rn U]. destruct (IH U) as [H B0]. rewrite Rn in H. split.
    + eapply sound_sub; [eapply collectn_sound; eassumption|..]; auto.
    + destruct n; auto.
  - intros A k size c IH U. destruct (IH U) as [H B0]. split; auto.
    eapply sound_sub; [eapply and_then_sound with (F1 := fun n w a => justifies c w a /\ len w = n);
      [apply unum_sound|intros n; apply length_sound; [eassumption|reflexivity]]|..]; auto.
    intros w i (w0 & w1 & n & -> & K0 & K1 & <-). exists w0, w1; auto.
  - intros A k c IH [Rn U]. destruct (IH U) as [H B0]. rewrite Rn in H. split; auto.
    eapply sound_sub; [eapply and_then_sound; [apply unum_sound|intros n; eapply collectn_sound; eassumption]|..]; auto.
    intros w i (w0 & w1 & n & -> & K0 & K1 & E). exists w0, w1. rewrite E, N2Nat.id. auto.
  - intros A k c IH U. destruct (IH U) as [H B0]. split; auto.
    eapply sound_sub; [eapply and_then_sound with (a1 := false) (b1 := false) (F1 := fun n w o =>
        match o with None => n = 0%N /\ w = [] | Some a => n <> 0%N /\ justifies c w a end);
      [apply unum_sound|]|..]; auto.
    + intros n. destruct (N.eqb_spec n 0).
      * eapply sound_sub; [apply omit_true_sound|..]; auto. intros w i [-> ->]; auto.
      * eapply sound_sub; [apply omit_false_sound; eassumption|..]; auto; try discriminate.
        intros w i (a & -> & K); auto.
  - intros A B c IH c' IH' [U U']. destruct (IH U) as [H B0]. destruct (IH' U') as [H' B1].
    split; [apply dp_snoc_ok, dp_one_ok|]. split; [now apply pair_sound|].
    intros E. cbn. apply orb_prop in E. destruct E as [E|E].
    + now rewrite B0.
    + rewrite B1; auto. apply andb_false_r.
  - intros A B p IH c IH' [U U']. destruct (IH U) as (OK & H & B0). destruct (IH' U') as [H' B1].
    split; [now apply dp_snoc_ok|]. split.
    + eapply sound_sim; [apply tuple_snoc_eq; auto|]. now apply pair_sound.
    + intros E. cbn. cbn in B0. apply orb_prop in E. destruct E as [E|E].
      * now rewrite B0.
      * rewrite B1; auto. apply andb_false_r.
Qed.

(** ** [justifies] against [reads] *)
Lemma sequence_sub : forall A (F G : format A) w l, (forall v i, F v i -> G v i) ->
  sequence_of F w l -> sequence_of G w l.
Proof. intros A F G w l H (ws & E & K). exists ws; split; auto. eapply forall2_sub; eauto. Qed.
Lemma sequence_sub_in : forall A (F G : format A) w l, (forall v i, fits v -> F v i -> G v i) ->
  fits w -> sequence_of F w l -> sequence_of G w l.
Proof.
  intros A F G w l H L (ws & E & K). exists ws; split; auto. subst w. revert L.
  induction K; intros L; constructor; cbn in L; unfold fits in *; rewrite len_app in L.
  - apply H; auto. unfold fits. lia.
  - apply IHK. lia.
Qed.
Lemma reads_justifies :
  (forall A (c : codec A) w i, reads c w i -> justifies c w i) /\
  (forall A (p : parts A) w i, preads p w i -> pjustifies p w i).
Proof.
  apply codec_parts_ind; cbn; intros; auto.
  - destruct H as (? & ? & ?); auto.
  - destruct H as (? & ? & ?); auto.
  - destruct H; auto.
  - destruct H; auto.
  - destruct H as (? & ? & ?); auto.
  - destruct H; auto.
  - destruct H. exists [], (length w). rewrite app_nil_r. auto.
  - destruct H0 as (a & ? & ?); eauto.
  - destruct H0 as (a & ? & ?); eauto.
  - destruct i; destruct H0; auto.
  - destruct H0; auto.
  - destruct H0; auto.
  - destruct H0; auto.
  - destruct H0; auto.
  - destruct H0 as [_ H0]. exists w, []. rewrite app_nil_r. split; auto. eapply sequence_sub; eauto.
  - destruct H0 as (_ & H0 & L). split; auto. eapply sequence_sub; eauto.
  - destruct H0 as (_ & w0 & w1 & ? & ? & ?). exists w0, w1; auto.
  - destruct H0 as (_ & w0 & w1 & ? & ? & ?). exists w0, w1; split; auto; split; auto. eapply sequence_sub; eauto.
  - destruct H0 as (_ & w0 & w1 & n & ? & ? & K). exists w0, w1, n; split; auto; split; auto. destruct i; destruct K; auto.
  - destruct H1 as (_ & w0 & w1 & ? & ? & ?). exists w0, w1; auto.
  - destruct H1 as (_ & w0 & w1 & ? & ? & ?). exists w0, w1; auto.
Qed.
Lemma fits_l : forall a b, fits (a ++ b) -> fits a.
Proof. unfold fits. intros a b. rewrite len_app. lia. Qed.
Lemma fits_r : forall a b, fits (a ++ b) -> fits b.
Proof. unfold fits. intros a b. rewrite len_app. lia. Qed.
Lemma justifies_reads :
  (forall A (c : codec A) w i, faithful c -> fits w -> justifies c w i -> reads c w i) /\
  (forall A (p : parts A) w i, pfaithful p -> fits w -> pjustifies p w i -> preads p w i).
Proof.
  apply codec_parts_ind; cbn; intros; auto.
  - destruct H1; auto.
  - destruct H1; auto.
  - destruct H1; auto.
  - destruct H1 as (tail & r & E & T). split; auto. pose proof (H _ _ _ E). subst r.
    assert (tail = []) as ->. { destruct T; auto. rewrite app_length in *. destruct tail; auto. cbn in *; lia. }
    now rewrite app_nil_r in E.
  - destruct H2 as (a & ? & ?); eauto.
  - destruct H2 as (a & ? & ?); eauto.
  - destruct i; destruct H2; auto.
  - destruct H2; auto.
  - destruct H2; auto.
  - destruct H2; auto.
  - destruct H0; split; auto.
  - contradiction.
  - destruct H2 as (? & ?). split; auto. split; auto. eapply sequence_sub_in with (F := justifies c); auto.
  - split; auto. destruct H2 as (w0 & w1 & -> & ? & ?). exists w0, w1; split; auto; split; auto.
    apply H; auto. eapply fits_r; eauto.
  - split; auto. destruct H2 as (w0 & w1 & -> & ? & ?). exists w0, w1; split; auto; split; auto.
    eapply sequence_sub_in with (F := justifies c); auto. eapply fits_r; eauto.
  - split; auto. destruct H2 as (w0 & w1 & n & -> & ? & K). exists w0, w1, n; split; auto; split; auto.
    destruct i; destruct K; split; auto. apply H; auto. eapply fits_r; eauto.
  - destruct H1. split; auto. destruct H3 as (w0 & w1 & -> & ? & ?). exists w0, w1; split; auto; split.
    + apply H; auto. eapply fits_l; eauto.
    + apply H0; auto. eapply fits_r; eauto.
  - destruct H1. split; auto. destruct H3 as (w0 & w1 & -> & ? & ?). exists w0, w1; split; auto; split.
    + apply H; auto. eapply fits_l; eauto.
    + apply H0; auto. eapply fits_r; eauto.
Qed.
