(** * The primitive encoders meet the encoding contract. *)
From Verif Require Export Spec Prim Fixnum Utf8 Lib.
Set Implicit Arguments.

(** ** General facts about the contract *)
Lemma estep_fuel : forall S I (E : Encoder S I) f0 f1 P R,
  f0 <= f1 -> estep_ok E f0 P R -> estep_ok E f1 P R.
Proof.
  intros S I E f0 f1 P R L [H1 H2 H3 H4 H5]. constructor; auto.
  - intros s w w' fuel buf e r id LW NE NR F. apply (H4 s w w' fuel buf e); auto; lia.
  - intros s w fuel buf e r id LW F. apply (H5 s w fuel buf e); auto; lia.
Qed.
Lemma emits_fuel : forall S I (E : Encoder S I) f0 f1 P s w,
  f0 <= f1 -> emits E f0 P s w -> emits E f1 P s w.
Proof. intros S I E f0 f1 P s w L (R & H & r). exists R; split; auto. eapply estep_fuel; eauto. Qed.
Lemma accepts_fuel : forall S I (E : Encoder S I) f0 f1 P s i w,
  f0 <= f1 -> accepts E f0 P s i w -> accepts E f1 P s i w.
Proof.
  intros S I E f0 f1 P s i w L A fuel F. destruct (A fuel ltac:(lia)) as (s' & H & r).
  exists s'; split; auto. eapply emits_fuel; eauto.
Qed.
Lemma emits_post : forall S I (E : Encoder S I) f0 (P Q : S -> Prop) s w,
  (forall s, P s -> Q s) -> emits E f0 P s w -> emits E f0 Q s w.
Proof.
  intros S I E f0 P Q s w PQ (R & [H1 H2 H3 H4 H5] & r). exists R; split; auto.
  constructor; auto. intros s0 w0 r0 id. destruct (H2 _ _ r0 id); auto.
Qed.

(** [emits] is itself closed under the permitted calls. *)
Lemma emits_step_ok : forall S I (E : Encoder S I) f0 P, estep_ok E f0 P (emits E f0 P).
Proof.
  intros S I E f0 P. constructor.
  - intros s w (R & H & r). exact (eo_len H r).
  - intros s w (R & H & r). exact (eo_idle H r).
  - intros s w (R & H & r). exact (eo_req H r).
  - intros s w w' fuel buf e (R & H & r) id L NE NR F.
    destruct (eo_more H r id L NE NR F) as (s' & ? & ? & ?).
    exists s'; repeat split; auto. exists R; auto.
  - intros s w fuel buf e (R & H & r) id L F.
    destruct (eo_last H (e := e) r id L F) as (s' & ? & ? & ?).
    exists s'; repeat split; auto. exists R; auto.
Qed.
Arguments emits_step_ok {S I} E f0 P.
Definition emits_len S I (E : Encoder S I) f0 P := @eo_len _ _ _ _ _ _ (emits_step_ok E f0 P).
Definition emits_idle S I (E : Encoder S I) f0 P := @eo_idle _ _ _ _ _ _ (emits_step_ok E f0 P).
Definition emits_req S I (E : Encoder S I) f0 P := @eo_req _ _ _ _ _ _ (emits_step_ok E f0 P).
Definition emits_more S I (E : Encoder S I) f0 P := @eo_more _ _ _ _ _ _ (emits_step_ok E f0 P).
Definition emits_last S I (E : Encoder S I) f0 P := @eo_last _ _ _ _ _ _ (emits_step_ok E f0 P).
Arguments emits_len {S I E f0 P s w} _.
Arguments emits_idle {S I E f0 P s w} _ _.
Arguments emits_req {S I E f0 P s w} _.
Arguments emits_more {S I E f0 P s w w' fuel buf e} _ _ _ _ _ _.
Arguments emits_last {S I E f0 P s w fuel buf} e _ _ _ _.

(** An encoder in a resting state outputs nothing. *)
Lemma rests_emits : forall S I (E : Encoder S I) P s, rests E P -> P s -> emits E 0 P s [].
Proof.
  intros S I E P s H Ps. exists (fun s w => w = [] /\ P s); split; auto.
  constructor.
  - intros ? ? [-> _]; cbn; lia.
  - intros ? ? [-> ?] _; auto.
  - intros s0 w [-> Ps0]. left. destruct (H s0 Ps0) as (_ & Q & _). exact Q.
  - intros s0 w w' fuel buf e [_ Ps0] id. destruct (H s0 Ps0) as (Id & _). congruence.
  - intros s0 w fuel buf e [_ Ps0] id. destruct (H s0 Ps0) as (Id & _). congruence.
Qed.

(** A wrapper that runs the encoder unchanged. *)
Lemma overwrite_0 : forall {A} (b src : list A), overwrite b 0 src = src ++ skipn (length src) b.
Proof. reflexivity. Qed.

(** ** BytesEncoder *)
Section BytesE.
  Context {B : Type} (BX : ByteBox B).

  Definition bytes_efmt : format B := fun w b => w = bx_ref BX b /\ (len w <= isize_max)%N.
  Definition bytes_eidle (st : BytesEnc B) : Prop := be_bytes st = None.

  Definition bytes_eR (st : BytesEnc B) (w : list byte) : Prop :=
    (len w <= isize_max)%N /\
    match be_bytes st with
    | None => w = []
    | Some b => exists pre, bx_ref BX b = pre ++ w /\ be_off st = length pre
    end.

  Lemma bytes_estep : estep_ok (bytes_encoder BX) 0 bytes_eidle bytes_eR.
  Proof.
    constructor.
    - intros s w (L & _); exact L.
    - intros [[b|] off] w (L & H) id; cbn in *; [discriminate|]. split; auto. reflexivity.
    - intros [[b|] off] w (L & H); cbn in *.
      + destruct H as (pre & H & ->). left. rewrite H, app_length.
        rewrite usize_sub_ok by lia. cbn. unfold len. do 2 f_equal. lia.
      + subst; auto.
    - intros [[b|] off] w w' fuel buf e (L & H) id LW NE NR F; cbn in H, id; [|discriminate].
      destruct H as (pre & H & ->). unfold bytes_encoder, enc_encode, bytes_encode; cbn [be_bytes be_off]. rewrite H.
      repeat rewrite app_length. pose proof (length_nonnil NE).
      rewrite usize_sub_ok by lia.
      replace (Nat.min _ _) with (length w) by lia.
      rewrite skipn_app_exact, firstn_app_exact, NR.
      replace (_ =? _) with false by lia.
      rewrite overwrite_0, LW, skipn_all, app_nil_r.
      eexists; split; [reflexivity|]. cbn. split; auto.
      rewrite len_app in L. split; [lia|]. cbn. exists (pre ++ w). rewrite app_length, <- app_assoc.
      split; auto; lia.
    - intros [[b|] off] w fuel buf e (L & H) id LW F; cbn in H, id; [|discriminate].
      destruct H as (pre & H & ->). unfold bytes_encoder, enc_encode, bytes_encode; cbn [be_bytes be_off]. rewrite H.
      rewrite app_length. rewrite usize_sub_ok by lia.
      replace (Nat.min _ _) with (length w) by lia.
      rewrite skipn_app_exact, firstn_all.
      replace (_ =? _) with true by lia.
      rewrite overwrite_0.
      eexists; split; [reflexivity|]. cbn. split; auto. split; cbn; auto; lia.
  Qed.

  Lemma bytes_rests : rests (bytes_encoder BX) bytes_eidle.
  Proof.
    intros [b off] H. unfold bytes_eidle in H; cbn in *. subst b. cbn. repeat split; auto.
    intros. eexists; split; reflexivity.
  Qed.

  Lemma bytes_encodes : encodes (bytes_encoder BX) bytes_efmt bytes_eidle bytes_eidle.
  Proof.
    intros w i [-> L]. exists 0. intros [b off] H. unfold bytes_eidle in H; cbn in H; subst b.
    exists (mkBytesEnc (Some i) 0). split; [reflexivity|].
    exists bytes_eR; split; [apply bytes_estep|]. split; auto. cbn. exists []; auto.
  Qed.
End BytesE.

(** ** NullEncoder *)
Lemma null_rests : rests null_encoder (fun _ => True).
Proof. intros [] _. cbn. repeat split; auto. intros; exists tt; auto. Qed.
Lemma null_encodes : encodes null_encoder (fun w _ => w = []) (fun _ => True) (fun _ => True).
Proof.
  intros w i ->. exists 0. intros [] _. exists tt; split; [reflexivity|].
  exact (rests_emits _ null_rests I).
Qed.

(** ** Numbers *)
Definition num_efmt {T} (f : T -> list byte + ErrorKind) : format T :=
  fun w t => f t = inl w /\ (len w <= isize_max)%N.
Lemma emits_ext : forall S I I' (E : Encoder S I) (E' : Encoder S I') f0 P s w,
  (forall fuel s buf e, enc_encode E' fuel s buf e = enc_encode E fuel s buf e) ->
  (forall s, enc_req E' s = enc_req E s) ->
  (forall s, enc_idle E' s = enc_idle E s) ->
  emits E f0 P s w -> emits E' f0 P s w.
Proof.
  intros S I I' E E' f0 P s w E1 E2 E3 (R & [H1 H2 H3 H4 H5] & r). exists R; split; auto.
  constructor.
  - auto.
  - intros s0 w0 r0 id. rewrite E3 in id. eauto.
  - intros s0 w0 r0. rewrite E2, E3. auto.
  - intros s0 w0 w' fuel buf e r0 id L NE NR F. rewrite E3 in id. rewrite E1.
    destruct (H4 _ _ _ _ _ _ r0 id L NE NR F) as (s' & ? & ? & ?). exists s'. rewrite E3. auto.
  - intros s0 w0 fuel buf e r0 id L F. rewrite E3 in id. rewrite E1.
    destruct (H5 _ _ _ _ e r0 id L F) as (s' & ? & ? & ?). exists s'. rewrite E3. auto.
Qed.
Lemma rests_ext : forall S I I' (E : Encoder S I) (E' : Encoder S I') P,
  (forall fuel s buf e, enc_encode E' fuel s buf e = enc_encode E fuel s buf e) ->
  (forall s, enc_req E' s = enc_req E s) ->
  (forall s, enc_idle E' s = enc_idle E s) ->
  rests E P -> rests E' P.
Proof.
  intros S I I' E E' P E1 E2 E3 H s Ps. destruct (H s Ps) as (A & B & C).
  rewrite E2, E3. repeat split; auto. intros. rewrite E1. auto.
Qed.

Lemma num_rests : forall T (f : T -> list byte + ErrorKind),
  rests (num_encoder f) (@bytes_eidle (list byte)).
Proof. intros. apply (rests_ext (E := bytes_encoder vec_box)); auto. apply bytes_rests. Qed.
Lemma num_encodes : forall T (f : T -> list byte + ErrorKind),
  encodes (num_encoder f) (num_efmt f) (@bytes_eidle (list byte)) (@bytes_eidle (list byte)).
Proof.
  intros T f w t [Ft L]. exists 0. intros [b off] Hs.
  unfold bytes_eidle in Hs; cbn in Hs; subst b.
  exists (mkBytesEnc (Some w) 0). split.
  - cbn. now rewrite Ft.
  - eapply emits_ext with (E := bytes_encoder vec_box); auto.
    eexists; split; [apply bytes_estep|]. split; auto. cbn. exists []; auto.
Qed.

(** ** Utf8Encoder *)
Lemma utf8_rests : rests utf8_encoder (@bytes_eidle (list N)).
Proof. apply bytes_rests. Qed.
Lemma utf8_encodes :
  encodes utf8_encoder (bytes_efmt utf8_box) (@bytes_eidle (list N)) (@bytes_eidle (list N)).
Proof. apply bytes_encodes. Qed.

(** ** MonolithicEncoder *)
Section MonoE.
  Context {I : Type} (f : MonoEncode I).

  (** The output is the concatenation of what the function writes. *)
  Definition mono_efmt : format I :=
    fun w i => exists chunks, f i = (chunks, None) /\ w = concat chunks /\ (len w <= isize_max)%N.
  Definition mono_eidle (st : MonoEnc I) : Prop := me_item st = None /\ be_bytes (me_buf st) = None.

  Definition mono_eR (st : MonoEnc I) (w : list byte) : Prop :=
    match me_item st with
    | Some i => mono_efmt w i /\ be_bytes (me_buf st) = None
    | None => bytes_eR vec_box (me_buf st) w
    end.

  (** What a [WriterChain] contains after [write_all]. *)
  Lemma wc_write_all_ok : forall n data w, length data <= n ->
    exists w', wc_write_all n w data = w' /\
      (wc_room w = 0 -> wc_a w' = wc_a w /\ wc_room w' = 0 /\ wc_b w' = wc_b w ++ data) /\
      (length data <= wc_room w ->
         wc_a w' = wc_a w ++ data /\ wc_room w' = wc_room w - length data /\ wc_b w' = wc_b w) /\
      (wc_room w < length data -> wc_b w = [] ->
         wc_a w' = wc_a w ++ firstn (wc_room w) data /\ wc_room w' = 0 /\
         wc_b w' = skipn (wc_room w) data).
  Proof.
    induction n as [|n IH]; intros data w L.
    { destruct data; cbn in *; [|lia]. exists w.
      rewrite !app_nil_r. repeat split; auto; try lia. }
    destruct data as [|x data].
    { cbn. exists w. rewrite !app_nil_r. repeat split; auto; try lia.  }
    cbn [wc_write_all]. set (d := x :: data) in *. unfold wc_write.
    assert (LD : length d = S (length data)) by reflexivity. clearbody d.
    destruct (Nat.min (length d) (wc_room w) =? 0) eqn:Z.
    - assert (wc_room w = 0) as R0 by lia. rewrite R0.
      rewrite skipn_all.
      destruct n; cbn [wc_write_all]; eexists; split; try reflexivity; cbn;
        repeat split; auto; try lia; rewrite ?app_nil_r; auto;
        match goal with H : wc_b w = [] |- _ => rewrite H | _ => idtac end; auto.
    - remember (Nat.min (length d) (wc_room w)) as k eqn:Ek.
      destruct (IH (skipn k d) (mkWC (wc_a w ++ firstn k d) (wc_room w - k) (wc_b w)))
        as (w' & E & A & Bb & C).
      { rewrite skipn_length; lia. }
      exists w'. split; [exact E|]. cbn in A, Bb, C. rewrite skipn_length in *.
      split; [lia|]. split.
      + intros G. assert (k = length d) as K by lia.
        destruct Bb as (-> & -> & ->); [lia|]. rewrite K, firstn_all, skipn_all, app_nil_r.
        repeat split; auto; lia.
      + intros G Hb. assert (k = wc_room w) as K by lia.
        destruct A as (-> & -> & ->); [lia|]. rewrite K, Hb. auto.
  Qed.

  Lemma wc_fold_full : forall chunks w, wc_room w = 0 ->
    let w' := fold_left (fun w c => wc_write_all (length c) w c) chunks w in
    wc_a w' = wc_a w /\ wc_b w' = wc_b w ++ concat chunks.
  Proof.
    induction chunks as [|c chunks IH]; intros w R; cbn.
    { now rewrite app_nil_r. }
    destruct (wc_write_all_ok c w (le_n _)) as (w' & -> & A & _).
    destruct (A R) as (E1 & E2 & E3). destruct (IH w' E2) as [-> ->].
    now rewrite E1, E3, <- app_assoc.
  Qed.

  Lemma wc_fold : forall chunks w, wc_b w = [] ->
    let w' := fold_left (fun w c => wc_write_all (length c) w c) chunks w in
    wc_a w' = wc_a w ++ firstn (wc_room w) (concat chunks) /\
    wc_b w' = skipn (wc_room w) (concat chunks).
  Proof.
    induction chunks as [|c chunks IH]; intros w R; cbn.
    { now rewrite firstn_nil, skipn_nil, app_nil_r. }
    destruct (wc_write_all_ok c w (le_n _)) as (w' & -> & _ & A & B).
    destruct (le_lt_dec (length c) (wc_room w)) as [L|L].
    - destruct (A L) as (E1 & E2 & E3). rewrite R in E3.
      destruct (IH w' E3) as [-> ->]. rewrite E1, E2.
      rewrite firstn_app, skipn_app. rewrite (firstn_all2 c), (skipn_all2 c) by lia.
      rewrite <- app_assoc. auto.
    - destruct (B L R) as (E1 & E2 & E3).
      destruct (wc_fold_full chunks w' E2) as [-> ->]. rewrite E1, E3.
      rewrite firstn_app, skipn_app.
      replace (wc_room w - length c) with 0 by lia. cbn. now rewrite app_nil_r.
  Qed.

  Lemma mono_estep : estep_ok (mono_encoder f) 0 mono_eidle mono_eR.
  Proof.
    pose proof (bytes_estep vec_box) as BE.
    constructor.
    - intros [[i|] b] w H; cbn in H.
      + destruct H as [(? & _ & _ & L) _]; exact L.
      + exact (eo_len BE H).
    - intros [[i|] b] w H id; cbn in *; [discriminate|].
      destruct (eo_idle BE (s := b) H id). split; auto. split; auto.
    - intros [[i|] b] w H; cbn in *; [right; auto|].
      unfold mono_enc_idle; cbn. destruct (bytes_enc_idle b) eqn:id.
      + destruct (eo_idle BE (s := b) H id) as [-> _]. auto.
      + destruct (eo_req BE H) as [Q|[Q _]]; auto.
    - intros [[i|] b] w w' fuel buf e H id L NE NR F.
      + cbn in H. destruct H as ((chunks & Fi & E & LW) & Hb).
        unfold mono_encoder, mono_encode, enc_encode. cbn [me_item me_buf]. rewrite Fi.
        destruct (wc_fold chunks (mkWC [] (length buf) []) eq_refl) as [-> ->].
        cbn [wc_a wc_b wc_room app]. rewrite <- E, <- L, firstn_app_exact, skipn_app_exact.
        rewrite overwrite_0, L, skipn_all, app_nil_r.
        destruct w' as [|x w']; [congruence|]. unfold bytes_start.
        destruct b as [bb off]. cbn in Hb; subst bb. cbn.
        eexists; split; [reflexivity|]. split; [reflexivity|]. cbn.
        rewrite len_app in LW. split; [lia|]. cbn. exists []; auto.
      + cbn in H, id |- *. unfold mono_enc_idle in id; cbn in id.
        destruct (eo_more BE H id L NE NR F) as (b' & E & id' & H'). cbn in E.
        unfold mono_encode; cbn. rewrite E. eexists; split; [reflexivity|]. cbn. auto.
    - intros [[i|] b] w fuel buf e H id L F.
      + cbn in H. destruct H as ((chunks & Fi & E & LW) & Hb).
        unfold mono_encoder, mono_encode, enc_encode. cbn [me_item me_buf]. rewrite Fi.
        destruct (wc_fold chunks (mkWC [] (length buf) []) eq_refl) as [-> ->].
        cbn [wc_a wc_b wc_room app]. rewrite <- E, firstn_all2, skipn_all2 by lia.
        rewrite overwrite_0.
        eexists; split; [reflexivity|]. cbn. unfold mono_enc_idle, bytes_enc_idle; cbn. rewrite Hb.
        split; auto. split; cbn; [lia|]. now rewrite Hb.
      + cbn in H, id |- *. unfold mono_enc_idle in id; cbn in id.
        destruct (eo_last BE (e := e) H id L F) as (b' & E & id' & H'). cbn in E.
        unfold mono_encode; cbn. rewrite E. eexists; split; [reflexivity|]. cbn. auto.
  Qed.

  Lemma mono_rests : rests (mono_encoder f) mono_eidle.
  Proof.
    intros [i b] [Hi Hb]. cbn in *; subst. destruct b as [bb off]; cbn in *; subst.
    unfold mono_enc_idle; cbn. repeat split; auto.
    intros. eexists; split; [reflexivity|]. split; reflexivity.
  Qed.

  Lemma mono_encodes : encodes (mono_encoder f) mono_efmt mono_eidle mono_eidle.
  Proof.
    intros w i Fi. exists 0. intros [it b] [Hi Hb]. cbn in *; subst.
    exists (mkMonoEnc (Some i) b). split.
    - intros. cbn. unfold mono_enc_idle, bytes_enc_idle; cbn. now rewrite Hb.
    - exists mono_eR; split; [apply mono_estep|]. cbn; auto.
  Qed.
End MonoE.
