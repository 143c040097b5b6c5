(** * The primitive decoders meet the decoding contract. *)
From Verif Require Export Spec Prim Fixnum Lib.
Set Implicit Arguments.

(** ** General facts about the contract *)

Lemma parses_post : forall S I (D : Decoder S I) m (P Q : S -> Prop) s w i,
  (forall s, P s -> Q s) -> parses D m P s w i -> parses D m Q s w i.
Proof.
  intros S I D m P Q s w i PQ (R & [H1 H2 H3 H4 H5] & r). exists R; split; auto.
  constructor; auto.
  intros s0 w0 i0 r0 id. destruct (H2 _ _ _ r0 id) as (? & ? & s' & ? & ?). eauto 6.
Qed.

Lemma truthful_weaken : forall m buf rest e, truthful m buf rest e -> truthful SD buf rest e.
Proof. unfold truthful; intuition. Qed.

(** A self-delimiting decoder also works if nothing follows. *)
Lemma parses_sd_exact : forall S I (D : Decoder S I) (P : S -> Prop) s w i,
  parses D SD P s w i -> parses D Exact P s w i.
Proof.
  intros S I D P s w i (R & [H1 H2 H3 H4 H5] & r). exists R; split; auto.
  constructor; auto.
  - intros s0 i0 fuel buf w' extra e r0 id NE _ T F.
    apply (H4 s0 i0 fuel buf w' extra e); auto; [congruence|]. now apply truthful_weaken with Exact.
  - intros s0 i0 fuel w0 extra rest e r0 id _ T F.
    apply (H5 s0 i0 fuel w0 extra rest e); auto; [congruence|]. now apply truthful_weaken with Exact.
Qed.

Lemma truthful_not_reached : forall m buf rest e,
  truthful m buf rest e -> rest <> [] -> is_reached e = false.
Proof.
  intros m buf rest e [->|[[-> _]|[-> _]]] H; auto.
  rewrite is_reached_finite. destruct rest; [congruence|]. rewrite len_cons; lia.
Qed.

(** A decoder that behaves the same meets the same contracts. *)
Definition dec_sim {S I} (D D' : Decoder S I) : Prop :=
  (forall fuel s buf e, dec_decode D fuel s buf e = dec_decode D' fuel s buf e) /\
  (forall s, dec_finish D s = dec_finish D' s) /\
  (forall s q, dec_req D s = Ok q -> dec_req D' s = Ok q) /\
  (forall s, dec_idle D s = dec_idle D' s).

Lemma step_ok_ext : forall S I (D D' : Decoder S I) m P R,
  dec_sim D D' -> step_ok D m P R -> step_ok D' m P R.
Proof.
  intros S I D D' m P R (E1 & E2 & E3 & E4) [H1 H2 H3 H4 H5].
  constructor; auto.
  - intros s w i r id. rewrite <- E2. rewrite <- E4 in id.
    destruct (H2 s w i r id) as (? & ? & ?). auto.
  - intros s w i r id. rewrite <- E4 in id. specialize (H3 s w i r id).
    destruct (dec_req D s) as [q| | |] eqn:Q; [now rewrite (E3 _ _ Q)|destruct m; contradiction..].
  - intros s i fuel buf w' extra e r id NE EX T F. rewrite <- E1. rewrite <- E4 in id.
    destruct (H4 s i fuel buf w' extra e r id NE EX T F) as (s' & ? & ? & ?).
    exists s'; rewrite <- E4; auto.
  - intros s i fuel w extra rest e r id EX T F. rewrite <- E1. rewrite <- E4 in id.
    destruct (H5 s i fuel w extra rest e r id EX T F) as (s' & ? & ? & ?).
    exists s'; rewrite <- E4; auto.
Qed.
Lemma parses_ext : forall S I (D D' : Decoder S I) m P s w i,
  dec_sim D D' -> parses D m P s w i -> parses D' m P s w i.
Proof. intros ? ? ? ? ? ? ? ? ? E (R & H & r). exists R; split; auto. eapply step_ok_ext; eauto. Qed.

(** ** Byte containers: writing and reading back *)
Record box_ok {B} (BX : ByteBox B) : Prop := {
  box_get_put : forall b l, length l = length (bx_ref BX b) -> bx_ref BX (bx_put BX b l) = l;
  box_put_get : forall b, bx_put BX b (bx_ref BX b) = b;
  box_put_put : forall b l l', length l = length (bx_ref BX b) ->
    length l' = length (bx_ref BX b) -> bx_put BX (bx_put BX b l) l' = bx_put BX b l'
}.
Lemma vec_box_ok : box_ok vec_box.
Proof. constructor; cbn; auto. Qed.

(** Overwriting part of a list. *)
Lemma overwrite_mid : forall {A} (pre mid src : list A),
  length src <= length mid ->
  overwrite (pre ++ mid) (length pre) src = (pre ++ src) ++ skipn (length src) mid.
Proof.
  intros; unfold overwrite.
  rewrite firstn_app_exact, <- app_assoc.
  do 2 f_equal. rewrite skipn_app.
  rewrite skipn_all2 by lia. cbn. f_equal; lia.
Qed.
Lemma overwrite_length : forall {A} (b : list A) off src,
  off + length src <= length b -> length (overwrite b off src) = length b.
Proof. intros; unfold overwrite; rewrite !app_length, firstn_length, skipn_length; lia. Qed.

(** ** CopyableBytesDecoder *)
Section Copy.
  Context {B : Type} (BX : ByteBox B) (OK : box_ok BX).

  (** The format: the content of a container like [b0] is replaced by the bytes. *)
  Definition copy_fmt (b0 : B) : format B :=
    fun w i => length w = length (bx_ref BX b0) /\ i = bx_put BX b0 w.
  (** Ready for the next item. *)
  Definition copy_ready (b0 : B) (st : CopyDec B) : Prop :=
    cd_off st = 0 /\
    exists l, length l = length (bx_ref BX b0) /\ cd_bytes st = bx_put BX b0 l.

  Lemma copy_ready_new : forall b0, copy_ready b0 (copy_dec_new b0).
  Proof.
    intros; split; cbn; auto. exists (bx_ref BX b0); split; auto.
    symmetry; apply (box_put_get OK).
  Qed.

  Definition copy_R (b0 : B) (st : CopyDec B) (w : list byte) (i : B) : Prop :=
    (len (bx_ref BX b0) <= isize_max)%N /\
    exists pre junk, cd_off st = length pre /\ cd_bytes st = bx_put BX b0 (pre ++ junk) /\
      length (pre ++ junk) = length (bx_ref BX b0) /\
      length (pre ++ w) = length (bx_ref BX b0) /\ i = bx_put BX b0 (pre ++ w).

  Lemma copy_decodes : forall b0, (len (bx_ref BX b0) <= isize_max)%N ->
    decodes (copy_decoder BX) SD (copy_fmt b0) (copy_ready b0) (copy_ready b0).
  Proof.
    intros b0 BND s w i [O (l & L & E)] [LW ->].
    exists (copy_R b0); split.
    2:{ split; auto. exists [], l; cbn; auto. }
    destruct OK as [GP PG PP].
    constructor.
    - intros s0 w0 i0 (_ & pre & junk & H1 & H2 & H3 & H4 & H5). rewrite app_length in H4.
      unfold len in *; lia.
    - intros s0 w0 i0 (_ & pre & junk & H1 & H2 & H3 & H4 & H5) id.
      cbn in id |- *. unfold copy_finish. rewrite id.
      rewrite H2, GP in id by lia. apply Nat.eqb_eq in id.
      rewrite H1, app_length in id. repeat rewrite app_length in H3; repeat rewrite app_length in H4.
      assert (junk = []) as -> by (apply length_zero_iff_nil; lia).
      assert (w0 = []) as -> by (apply length_zero_iff_nil; lia).
      split; auto. split.
      + rewrite H2, GP by (rewrite app_length; cbn; lia).
        rewrite usize_sub_ok by (rewrite H1, app_length; cbn; lia).
        rewrite H1, app_length; cbn. do 2 f_equal; lia.
      + eexists; split; [rewrite H2, H5; reflexivity|].
        split; cbn; auto. exists (pre ++ []); split; auto. rewrite app_length; cbn; lia.
    - intros s0 w0 i0 (_ & pre & junk & H1 & H2 & H3 & H4 & H5) id.
      cbn in id |- *. rewrite H2, GP in id |- * by lia.
      rewrite H1, app_length in id |- *. repeat rewrite app_length in H3; repeat rewrite app_length in H4.
      rewrite usize_sub_ok by lia. cbn. unfold len. split; [lia|].
      intros; apply length_zero_iff_nil; lia.
    - intros s0 i0 fuel buf w' extra e (_ & pre & junk & H1 & H2 & H3 & H4 & H5) id NE _ T _.
      pose proof H3 as H3'. pose proof H4 as H4'. repeat rewrite app_length in H3'; repeat rewrite app_length in H4'.
      pose proof (length_nonnil NE).
      cbn in id |- *. unfold copy_decode. rewrite H2, GP in * by lia.
      rewrite H1 in *. rewrite usize_sub_ok by (rewrite app_length; lia).
      replace (Nat.min (length buf) _) with (length buf) by (rewrite app_length; lia).
      rewrite firstn_all, overwrite_mid by lia.
      rewrite PP by (rewrite ?app_length, ?skipn_length; lia).
      rewrite GP by (rewrite !app_length, skipn_length; lia).
      rewrite (@truthful_not_reached SD buf (w' ++ extra) e T)
        by (destruct w'; cbn; congruence).
      rewrite andb_false_r.
      eexists; split; [reflexivity|]. cbn.
      rewrite GP by (rewrite !app_length, skipn_length; lia). split.
      + rewrite !app_length, skipn_length; lia.
      + split; auto. exists (pre ++ buf), (skipn (length buf) junk); cbn.
        repeat split; rewrite ?app_length, ?skipn_length, <- ?app_assoc; try lia; auto.
    - intros s0 i0 fuel w0 extra rest e (_ & pre & junk & H1 & H2 & H3 & H4 & H5) id _ T _.
      pose proof H3 as H3'. pose proof H4 as H4'. repeat rewrite app_length in H3'; repeat rewrite app_length in H4'.
      cbn in id |- *. unfold copy_decode. rewrite H2, GP in * by lia.
      rewrite H1 in *. rewrite usize_sub_ok by (rewrite app_length; lia).
      replace (Nat.min _ _) with (length w0) by (rewrite !app_length; lia).
      rewrite firstn_app_exact, overwrite_mid by lia.
      rewrite PP by (rewrite ?app_length, ?skipn_length; lia).
      rewrite GP by (rewrite !app_length, skipn_length; lia).
      replace (length pre + length w0 =? _) with true
        by (rewrite !app_length, skipn_length; lia).
      cbn [negb andb].
      eexists; split; [reflexivity|]. cbn.
      rewrite GP by (rewrite !app_length, skipn_length; lia). split.
      + rewrite !app_length, skipn_length; lia.
      + split; auto. exists (pre ++ w0), (skipn (length w0) junk); cbn.
        repeat split; rewrite ?app_length, ?skipn_length, ?app_nil_r; try lia; auto.
        cbn; lia.
  Qed.
End Copy.

(** ** BytesDecoder (single use) *)
Section BytesD.
  Context {B : Type} (BX : ByteBox B) (OK : box_ok BX).

  Definition bytes_R (b0 : B) (st : BytesDec B) (w : list byte) (i : B) : Prop :=
    (len (bx_ref BX b0) <= isize_max)%N /\
    exists pre junk, bd_off st = length pre /\
      bd_bytes st = Some (bx_put BX b0 (pre ++ junk)) /\
      length (pre ++ junk) = length (bx_ref BX b0) /\
      length (pre ++ w) = length (bx_ref BX b0) /\ i = bx_put BX b0 (pre ++ w).

  (** From a decoder holding a container like [b0] at offset 0; afterwards it holds nothing. *)
  Definition bytes_ready (b0 : B) (st : BytesDec B) : Prop :=
    bd_off st = 0 /\ bd_bytes st = Some b0.

  Lemma bytes_decodes : forall b0, (len (bx_ref BX b0) <= isize_max)%N ->
    decodes (bytes_decoder BX) SD (copy_fmt BX b0) (bytes_ready b0)
            (fun st => bd_bytes st = None).
  Proof.
    intros b0 BND s w i [O E] [LW ->].
    exists (bytes_R b0); split.
    2:{ split; auto. exists [], (bx_ref BX b0); cbn; repeat split; auto.
        rewrite (box_put_get OK); auto. }
    destruct OK as [GP PG PP].
    constructor.
    - intros s0 w0 i0 (_ & pre & junk & H1 & H2 & H3 & H4 & H5). rewrite app_length in H4.
      unfold len in *; lia.
    - intros s0 w0 i0 (_ & pre & junk & H1 & H2 & H3 & H4 & H5) id.
      cbn in id |- *. unfold bytes_finish. rewrite id. unfold bytes_dec_exact in id.
      rewrite H2 in *. rewrite GP in * by lia. apply Nat.eqb_eq in id.
      rewrite H1 in *. rewrite app_length in *.
      assert (junk = []) as -> by (apply length_zero_iff_nil; lia).
      assert (w0 = []) as -> by (apply length_zero_iff_nil; lia).
      split; auto. split.
      + rewrite usize_sub_ok by (cbn; lia). cbn. do 2 f_equal; lia.
      + eexists; split; [rewrite H5; reflexivity|reflexivity].
    - intros s0 w0 i0 (_ & pre & junk & H1 & H2 & H3 & H4 & H5) id.
      cbn in id |- *. unfold bytes_dec_exact in *. rewrite H2 in *. rewrite GP in * by lia.
      rewrite H1 in *. rewrite app_length in *.
      rewrite usize_sub_ok by lia. unfold req_ok, len. split; [lia|].
      intros; apply length_zero_iff_nil; lia.
    - intros s0 i0 fuel buf w' extra e (_ & pre & junk & H1 & H2 & H3 & H4 & H5) id NE _ T _.
      pose proof H3 as H3'. pose proof H4 as H4'. repeat rewrite app_length in H3'; repeat rewrite app_length in H4'.
      pose proof (length_nonnil NE).
      cbn in id |- *. unfold bytes_decode. rewrite H2 in *. rewrite GP in * by lia.
      rewrite H1 in *. rewrite usize_sub_ok by (rewrite app_length; lia).
      replace (Nat.min (length buf) _) with (length buf) by (rewrite app_length; lia).
      rewrite firstn_all, overwrite_mid by lia.
      rewrite PP by (rewrite ?app_length, ?skipn_length; lia).
      rewrite (@truthful_not_reached SD buf (w' ++ extra) e T)
        by (destruct w'; cbn; congruence).
      rewrite andb_false_r.
      eexists; split; [reflexivity|]. unfold bytes_dec_exact; cbn.
      rewrite GP by (rewrite !app_length, skipn_length; lia). split.
      + rewrite !app_length, skipn_length; lia.
      + split; auto. exists (pre ++ buf), (skipn (length buf) junk); cbn.
        repeat split; rewrite ?app_length, ?skipn_length, <- ?app_assoc; try lia; auto.
    - intros s0 i0 fuel w0 extra rest e (_ & pre & junk & H1 & H2 & H3 & H4 & H5) id _ T _.
      pose proof H3 as H3'. pose proof H4 as H4'. repeat rewrite app_length in H3'; repeat rewrite app_length in H4'.
      cbn in id |- *. unfold bytes_decode. rewrite H2 in *. rewrite GP in * by lia.
      rewrite H1 in *. rewrite usize_sub_ok by (rewrite app_length; lia).
      replace (Nat.min _ _) with (length w0) by (rewrite !app_length; lia).
      rewrite firstn_app_exact, overwrite_mid by lia.
      rewrite PP by (rewrite ?app_length, ?skipn_length; lia).
      unfold bytes_dec_exact; cbn.
      rewrite GP by (rewrite !app_length, skipn_length; lia).
      replace (_ - _ =? 0) with true by (rewrite !app_length, skipn_length; lia).
      cbn [negb andb].
      eexists; split; [reflexivity|]. cbn.
      rewrite GP by (rewrite !app_length, skipn_length; lia). split.
      + rewrite !app_length, skipn_length; lia.
      + split; auto. exists (pre ++ w0), (skipn (length w0) junk); cbn.
        repeat split; rewrite ?app_length, ?skipn_length, ?app_nil_r; try lia; auto.
        cbn; lia.
  Qed.
End BytesD.

(** ** RemainingBytesDecoder *)
Definition rem_fmt : format (list byte) := fun w i => i = w /\ (len w <= isize_max)%N.
Definition rem_ready (st : RemDec) : Prop := st = rem_dec_new.
Definition rem_R (st : RemDec) (w : list byte) (i : list byte) : Prop :=
  i = rm_buf st ++ w /\ (len i <= isize_max)%N /\ (rm_eos st = true -> w = []).

Lemma rem_decodes : decodes rem_decoder ToEos rem_fmt rem_ready rem_ready.
Proof.
  intros s w i -> [-> L]. exists rem_R; split.
  2:{ repeat split; cbn; auto; discriminate. }
  constructor.
  - intros s0 w0 i0 (-> & H & _). rewrite len_app in H; lia.
  - intros s0 w0 i0 (-> & H & K) id. cbn in id |- *. rewrite (K id) in *. rewrite id.
    split; [auto|split; [auto|]]. unfold rem_finish. rewrite id, app_nil_r.
    eexists; split; reflexivity.
  - intros s0 w0 i0 _ id. cbn in *. rewrite id. exact I.
  - intros s0 i0 fuel buf w' extra e (-> & H & K) id NE EX T _.
    cbn in *. unfold rem_decode. rewrite id.
    assert (NR : is_reached e = false)
      by (eapply truthful_not_reached; [exact T|destruct w'; cbn; congruence]).
    rewrite EX, app_nil_r in T by congruence.
    assert (G : exists s', (mkRemDec (rm_buf s0 ++ buf) (is_reached e), Ok (length buf))
                = (s', Ok (length buf)) /\ rm_eos s' = false /\
                  rem_R s' w' (rm_buf s0 ++ buf ++ w')).
    { eexists; split; [reflexivity|]. cbn. rewrite NR. split; auto.
      unfold rem_R; cbn. rewrite <- app_assoc. repeat split; auto; discriminate. }
    rewrite !len_app in H.
    destruct T as [->|[[-> ?]|[-> ?]]]; cbn; auto; try discriminate.
    replace (_ <=? isize_max)%N with true by lia. auto.
  - intros s0 i0 fuel w0 extra rest e (-> & H & K) id EX T _.
    destruct EX as [-> ->]; [congruence|]. rewrite app_nil_r in *.
    cbn in *. unfold rem_decode. rewrite id.
    assert (G : exists s', (mkRemDec (rm_buf s0 ++ w0) (is_reached e), Ok (length w0))
                = (s', Ok (length w0)) /\ rm_eos s' = is_reached e /\
                  rem_R s' [] (rm_buf s0 ++ w0)).
    { eexists; split; [reflexivity|]. cbn. split; auto.
      unfold rem_R; cbn. rewrite app_nil_r. auto. }
    rewrite !len_app in H.
    destruct T as [->|[[-> ?]|[-> ?]]]; cbn; auto; try discriminate.
    replace (_ <=? isize_max)%N with true by lia. auto.
Qed.

(** ** NullDecoder *)
Definition null_fmt : format unit := fun w _ => w = [].
Lemma null_decodes : decodes null_decoder SD null_fmt (fun _ => True) (fun _ => True).
Proof.
  intros s w [] _ ->. exists (fun _ w _ => w = []); split; auto.
  constructor; cbn; try discriminate.
  - intros ? ? _ ->. discriminate.
  - intros s0 w0 [] -> _. eauto.
Qed.

(** ** PaddingDecoder *)
Definition pad_fmt (b : option byte) : format unit :=
  fun w _ => (len w <= isize_max)%N /\ forall c, b = Some c -> Forall (fun x => x = c) w.
Definition pad_ready (b : option byte) (st : PadDec) : Prop := st = pad_dec_new b.
Definition pad_R (b : option byte) (st : PadDec) (w : list byte) (i : unit) : Prop :=
  pd_expected st = b /\ pad_fmt b w i /\ (pd_eos st = true -> w = []).

Lemma forallb_eqb : forall c w,
  forallb (fun b => Byte.eqb b c) w = true <-> Forall (fun x => x = c) w.
Proof.
  intros c w. rewrite forallb_forall, Forall_forall. split; intros H x K; specialize (H x K).
  - now apply Byte.byte_dec_bl.
  - now apply Byte.byte_dec_lb.
Qed.

Lemma pad_decodes : forall b, decodes pad_decoder ToEos (pad_fmt b) (pad_ready b) (pad_ready b).
Proof.
  intros b s w i -> F. exists (pad_R b); split.
  2:{ repeat split; cbn; auto; try apply F; discriminate. }
  constructor.
  - intros s0 w0 i0 (_ & [H _] & _). exact H.
  - intros s0 w0 [] (E & F0 & K) id. cbn in *. rewrite (K id), id.
    split; [auto|split; [auto|]]. eexists; split; [reflexivity|]. rewrite E. reflexivity.
  - intros s0 w0 i0 _ id. cbn in *. rewrite id. exact I.
  - intros s0 i0 fuel buf w' extra e (E & [L F0] & K) id NE EX T _.
    assert (NR : is_reached e = false)
      by (eapply truthful_not_reached; [exact T|destruct w'; cbn; congruence]).
    rewrite len_app in L.
    cbn in *. unfold pad_decode. rewrite id, E, NR.
    assert (G : exists s', (mkPadDec b false, @Ok nat (length buf)) = (s', Ok (length buf)) /\
        pd_eos s' = false /\ pad_R b s' w' i0).
    { eexists; split; [reflexivity|]. cbn; split; auto. split; [|split]; cbn; auto.
      - split; [lia|]. intros c Hc. specialize (F0 c Hc). now apply Forall_app in F0.
      - discriminate. }
    destruct b as [c|]; auto.
    specialize (F0 c eq_refl). apply Forall_app in F0. destruct F0 as [F0 _].
    apply forallb_eqb in F0. rewrite F0. auto.
  - intros s0 i0 fuel w0 extra rest e (E & [L F0] & K) id EX T _.
    destruct EX as [-> ->]; [congruence|]. rewrite app_nil_r in *.
    cbn in *. unfold pad_decode. rewrite id, E.
    assert (G : exists s', (mkPadDec b (is_reached e), @Ok nat (length w0)) = (s', Ok (length w0)) /\
        pd_eos s' = is_reached e /\ pad_R b s' [] i0).
    { eexists; split; [reflexivity|]. cbn; split; auto. split; [|split]; cbn; auto.
      split; [cbn; lia|]. intros; constructor. }
    destruct b as [c|]; auto.
    specialize (F0 c eq_refl). apply forallb_eqb in F0. rewrite F0. auto.
Qed.

(** ** MonolithicDecoder *)
(** [f] must read the whole stream. *)
Definition mono_fmt {I} (f : MonoDecode I) : format I :=
  fun w i => f w = (inl i, length w) /\ (len w <= isize_max)%N.
Definition mono_ready {I} (st : MonoDec I) : Prop := st = mono_dec_new.
Definition mono_R {I} (f : MonoDecode I) (st : MonoDec I) (w : list byte) (i : I) : Prop :=
  match md_item st with
  | Some j => w = [] /\ j = i /\ md_buf st = []
  | None => mono_fmt f (md_buf st ++ w) i
  end.
Lemma mono_decodes : forall I (f : MonoDecode I),
  decodes (mono_decoder f) ToEos (mono_fmt f) (@mono_ready I) (@mono_ready I).
Proof.
  intros I f s w i -> F. exists (mono_R f); split; [|exact F].
  constructor.
  - intros s0 w0 i0. unfold mono_R. destruct (md_item s0).
    + intros (-> & _); cbn; lia.
    + intros [_ H]. rewrite len_app in H; lia.
  - intros s0 w0 i0. unfold mono_R; cbn. destruct (md_item s0); [|discriminate].
    intros (-> & -> & Hb) _. split; [auto|split; [auto|]]. rewrite Hb. eexists; split; reflexivity.
  - intros s0 w0 i0 _. cbn. destruct (md_item s0); [discriminate|]. cbn; auto.
  - intros s0 i0 fuel buf w' extra e. unfold mono_R; cbn.
    destruct (md_item s0) eqn:Hi; [discriminate|].
    intros F0 _ NE _ T _. unfold mono_decode.
    rewrite (truthful_not_reached T) by (destruct w'; cbn; congruence).
    eexists; split; [reflexivity|]. cbn. rewrite Hi. split; auto. now rewrite <- app_assoc.
  - intros s0 i0 fuel w0 extra rest e. unfold mono_R; cbn.
    destruct (md_item s0) eqn:Hi; [discriminate|].
    intros F0 _ EX T _. destruct EX as [-> ->]; [congruence|]. rewrite !app_nil_r in *.
    unfold mono_decode. destruct (is_reached e) eqn:Re.
    + destruct F0 as [F0 _]. rewrite F0. eexists; split; [|].
      { do 2 f_equal. rewrite app_length; lia. }
      cbn; auto.
    + eexists; split; [reflexivity|]. cbn. rewrite Hi, app_nil_r. auto.
Qed.
