(** * Repeat, PreEncode, Last and Length over padding meet the encoding contract. *)
From Verif Require Export Drive.
Set Implicit Arguments.

(** ** Repeat *)
Section Rep.
  Context {S I : Type} (E : Encoder S I) (f0 : nat) (P : S -> Prop) (RS : rests E P).

  Definition rep_items (ws : list (list byte)) (is : list I) : Prop :=
    Forall2 (fun w i => w <> [] /\ forall s, P s -> accepts E f0 P s i w) ws is.
  Definition rep_R (st : Repeat S I) (w : list byte) : Prop :=
    (len w <= isize_max)%N /\
    match rp_items st with
    | None => w = [] /\ P (rp_inner st)
    | Some is => exists w1 ws, w = w1 ++ concat ws /\ emits E f0 P (rp_inner st) w1 /\
                   rep_items ws is /\ (w1 = [] -> P (rp_inner st))
    end.

  (** After the pull the encoder is in the middle of an item, or everything is out. *)
  Lemma rep_pull : forall s w1 ws is fuel,
    emits E f0 P s w1 -> (w1 = [] -> P s) -> rep_items ws is -> f0 <= fuel ->
    (w1 = [] /\ ws = [] /\ repeat_pull E fuel s is = PullDone s /\ P s) \/
    (exists s' w1' ws' is', w1 ++ concat ws = w1' ++ concat ws' /\ w1' <> [] /\
       repeat_pull E fuel s is = PullGo s' is' /\
       emits E f0 P s' w1' /\ enc_idle E s' = false /\ rep_items ws' is').
  Proof.
    intros s w1 ws is fuel H HP HI F.
    destruct (nil_or_not w1) as [->|NE].
    - specialize (HP eq_refl). destruct (RS HP) as (id & _).
      inversion HI as [|w i ws' is' [NW AC] HI']; subst.
      + left. cbn. rewrite id. auto.
      + right. destruct (AC s HP fuel F) as (s' & ST & H'). exists s', w, ws', is'.
        assert (id' : enc_idle E s' = false).
        { destruct (enc_idle E s') eqn:X; auto. destruct (emits_idle H' X) as [? _]. contradiction. }
        cbn. rewrite id, ST. split; auto. split; auto. split; auto.
        destruct is'; cbn; rewrite id'; auto.
    - right. exists s, w1, ws, is.
      assert (id' : enc_idle E s = false).
      { destruct (enc_idle E s) eqn:X; auto. destruct (emits_idle H X) as [? _]. contradiction. }
      split; auto. split; auto. split; auto. destruct is; cbn; rewrite id'; auto.
  Qed.

  Lemma rep_more : forall n fuel is s w1 ws pre w b w' e,
    emits E f0 P s w1 -> (w1 = [] -> P s) -> rep_items ws is ->
    w1 ++ concat ws = w ++ w' -> length w = length b -> w' <> [] ->
    is_reached e = false -> length b < n -> f0 + length b < fuel ->
    exists s' w1' ws' is',
      repeat_loop E n fuel (mkRepeat s (Some is)) (length pre) (pre ++ b) e
      = (mkRepeat s' (Some is'), pre ++ w, Ok (length (pre ++ b))) /\
      w' = w1' ++ concat ws' /\ emits E f0 P s' w1' /\ (w1' = [] -> P s') /\ rep_items ws' is'.
  Proof.
    induction n as [|n IH]; intros fuel is s w1 ws pre w b w' e H HP HI EQ LW NE NR N F; [lia|].
    cbn [repeat_loop rp_items rp_inner].
    destruct (rep_pull (fuel := fuel) H HP HI ltac:(lia)) as [(-> & -> & _)|X].
    { cbn in EQ. symmetry in EQ. apply app_eq_nil in EQ. tauto. }
    destruct X as (s1 & u1 & us & js & EQ' & NU & -> & H1 & id1 & HI1).
    rewrite slice_from_app. rewrite EQ' in EQ.
    destruct (app_cases _ _ _ _ EQ) as [(u1' & -> & EW & NU')|(b1 & EW & EC)].
    - (* the item does not fit *)
      destruct (emits_more H1 id1 LW NU' NR F) as (s2 & -> & id2 & H2).
      rewrite firstn_app_exact.
      destruct (length b =? 0) eqn:B0.
      + exists s2, u1', us, js. rewrite app_length. split; auto. split; auto. split; auto. split; auto.
        intros X; contradiction.
      + destruct (IH fuel js s2 u1' us (pre ++ w) [] [] w' e H2) as (s3 & v1 & vs & ks & X & Y);
          auto; try (cbn; lia).
        { intros X; contradiction. }
        exists s3, v1, vs, ks. rewrite !app_nil_r in X. rewrite app_length in *. rewrite <- LW. rewrite X. split; auto.
    - (* it does: go on with the next one *)
      subst w. rewrite app_length in LW.
      destruct (emits_last e H1 id1 (buf := b) (fuel := fuel) ltac:(lia) ltac:(lia)) as (s2 & -> & id2 & H2).
      rewrite firstn_app_exact. pose proof (length_nonnil NU).
      replace (length u1 =? 0) with false by lia.
      destruct (IH fuel js s2 [] us (pre ++ u1) b1 (skipn (length u1) b) w' e H2)
        as (s3 & v1 & vs & ks & X & Y); auto; try (rewrite skipn_length; lia).
      { intros _. apply (emits_idle H2 id2). }
      exists s3, v1, vs, ks. rewrite app_length in X. rewrite !app_assoc. rewrite X. split; auto.
      do 2 f_equal. rewrite !app_length, skipn_length. lia.
  Qed.

  Arguments rep_more {n fuel is s w1 ws} pre {w b w' e} _ _ _ _ _ _ _ _ _.
  Lemma rep_last : forall n fuel is s w1 ws pre b e,
    emits E f0 P s w1 -> (w1 = [] -> P s) -> rep_items ws is ->
    length (w1 ++ concat ws) <= length b -> length b < n -> f0 + length b < fuel ->
    exists s',
      repeat_loop E n fuel (mkRepeat s (Some is)) (length pre) (pre ++ b) e
      = (mkRepeat s' None, pre ++ (w1 ++ concat ws) ++ skipn (length (w1 ++ concat ws)) b,
         Ok (length (pre ++ w1 ++ concat ws))) /\ P s'.
  Proof.
    induction n as [|n IH]; intros fuel is s w1 ws pre b e H HP HI LW N F; [lia|].
    cbn [repeat_loop rp_items rp_inner].
    destruct (rep_pull (fuel := fuel) H HP HI ltac:(lia)) as [(-> & -> & -> & PP)|X].
    { exists s. cbn. rewrite app_nil_r. auto. }
    destruct X as (s1 & u1 & us & js & EQ' & NU & -> & H1 & id1 & HI1).
    rewrite slice_from_app. rewrite EQ' in *. rewrite app_length in LW.
    destruct (emits_last e H1 id1 (buf := b) (fuel := fuel) ltac:(lia) ltac:(lia)) as (s2 & -> & id2 & H2).
    rewrite firstn_app_exact. pose proof (length_nonnil NU).
    replace (length u1 =? 0) with false by lia.
    destruct (IH fuel js s2 [] us (pre ++ u1) (skipn (length u1) b) e H2)
      as (s3 & X & Y); auto; try (cbn; rewrite skipn_length; lia).
    { intros _. apply (emits_idle H2 id2). }
    exists s3. rewrite app_length in X. rewrite !app_assoc. rewrite X. split; auto.
    cbn [app]. rewrite skipn_skipn, !app_length. rewrite <- !app_assoc.
    replace (length (concat us) + length u1) with (length u1 + length (concat us)) by lia.
    do 2 f_equal.
  Qed.

  Arguments rep_last {n fuel is s w1 ws} pre {b} e _ _ _ _ _ _.
  Lemma rep_estep : estep_ok (repeat_encoder E) f0
    (fun st => P (rp_inner st) /\ rp_items st = None) rep_R.
  Proof.
    constructor.
    - intros st w [L _]. exact L.
    - intros [s [is|]] w [L H] id; cbn in *; [discriminate|]. tauto.
    - intros [s [is|]] w [L H]; cbn in *; [right; auto|left]. destruct H as [-> _]. auto.
    - intros [s [is|]] w w' fuel buf e [L H] id LW NE NR F; cbn in id; [|discriminate].
      cbn in H. destruct H as (w1 & ws & EQ & H & HI & HP).
      destruct (rep_more (n := fuel) [] (fuel := fuel) H HP HI (eq_sym EQ) LW NE NR ltac:(lia) F)
        as (s' & u1 & us & js & X & EW & H' & HP' & HI').
      exists (mkRepeat s' (Some js)). cbn [app length] in X. split; [exact X|]. split; auto.
      split; [rewrite len_app in L; lia|]. cbn. exists u1, us. auto.
    - intros [s [is|]] w fuel buf e [L H] id LW F; cbn in id; [|discriminate].
      cbn in H. destruct H as (w1 & ws & -> & H & HI & HP).
      destruct (rep_last (n := fuel) [] e (fuel := fuel) H HP HI LW ltac:(lia) F) as (s' & X & PP).
      exists (mkRepeat s' None). cbn [app] in X. split; [exact X|]. split; auto.
      split; [cbn; unfold isize_max; lia|]. cbn; auto.
  Qed.
End Rep.

Lemma repeat_rests : forall S I (E : Encoder S I) P,
  rests E P -> rests (repeat_encoder E) (fun st => P (rp_inner st) /\ rp_items st = None).
Proof.
  intros S I E P RS [s o] [PP X]. cbn in PP, X. subst o. split; auto. split; auto.
  intros [|fuel] buf e F; [lia|]. exists (mkRepeat s None). split; auto.
  cbn. destruct (RS s PP) as (-> & _). auto.
Qed.

Lemma forall2_max : forall I (ws : list (list byte)) (is : list I) (Q : nat -> list byte -> I -> Prop),
  (forall a b w i, a <= b -> Q a w i -> Q b w i) ->
  Forall2 (fun w i => exists f, Q f w i) ws is -> exists f, Forall2 (Q f) ws is.
Proof.
  intros I ws is Q M H. induction H as [|w i ws is [a A] H [b B]].
  - exists 0. constructor.
  - exists (Nat.max a b). constructor; [eapply M; [|eauto]; lia|].
    clear - M B. induction B; constructor; auto. eapply M; [|eauto]; lia.
Qed.

Definition eseq_fmt {I} (fmt : format I) : format (list I) :=
  fun w is => (len w <= isize_max)%N /\ exists ws, w = concat ws /\ Forall2 fmt ws is.

Lemma repeat_encodes : forall S I (E : Encoder S I) (fmt : format I) P,
  rests E P -> encodes E fmt P P -> (forall w i, fmt w i -> w <> []) ->
  encodes (repeat_encoder E) (eseq_fmt fmt)
          (fun st => P (rp_inner st) /\ rp_items st = None)
          (fun st => P (rp_inner st) /\ rp_items st = None).
Proof.
  intros S I E fmt P RS ENC NEF w is (L & ws & -> & F2).
  destruct (@forall2_max I ws is (fun f0 w i => w <> [] /\ forall s, P s -> accepts E f0 P s i w))
    as (f0 & H).
  { intros a b w i LE [? A]. split; auto. intros s PP. eapply accepts_fuel; eauto. }
  { clear L. induction F2; constructor; auto. destruct (ENC _ _ H) as (f0 & A). exists f0. split; auto.
    eapply NEF; eauto. }
  exists f0. intros [s o] [PP X] fuel F. cbn in PP, X. subst o.
  exists (mkRepeat s (Some is)). split; auto.
  eexists; split; [apply (rep_estep f0 RS)|].
  split; auto. cbn. exists [], ws. split; auto. split; auto.
  eapply emits_fuel; [|apply rests_emits; eauto]; lia.
Qed.

(** ** PreEncode *)
Definition pre_idle {S} (P : S -> Prop) (st : PreEncode S) : Prop :=
  P (pre_inner st) /\ bytes_eidle (pre_encoded st).
Lemma pre_estep : forall S I (E : Encoder S I) P,
  estep_ok (pre_encoder E) 0 (pre_idle P)
           (fun st w => P (pre_inner st) /\ bytes_eR vec_box (pre_encoded st) w).
Proof.
  intros S I E P. pose proof (bytes_estep vec_box) as [B1 B2 B3 B4 B5]. constructor.
  - intros st w [PP H]. eauto.
  - intros st w [PP H] id. destruct (B2 _ _ H id) as [-> X]. split; auto. split; auto.
  - intros st w [PP H]. destruct (B3 _ _ H); auto.
  - intros [s b] w w' fuel buf e [PP H] id LW NE NR F. cbn in *.
    destruct (B4 b w w' fuel buf e H id LW NE NR F) as (b' & X & id' & H').
    rewrite X. eexists; split; [reflexivity|]. auto.
  - intros [s b] w fuel buf e [PP H] id LW F. cbn in *.
    destruct (B5 b w fuel buf e H id LW F) as (b' & X & id' & H').
    rewrite X. eexists; split; [reflexivity|]. auto.
Qed.
Lemma pre_rests : forall S I (E : Encoder S I) (P : S -> Prop), rests (pre_encoder E) (pre_idle P).
Proof.
  intros S I E P [s b] [PP H]. cbn in *.
  destruct (bytes_rests vec_box H) as (A & B & C). split; auto. split; auto.
  intros fuel buf e F. destruct (C fuel buf e F) as (b' & X & Y).
  cbn in X. rewrite X. eexists; split; [reflexivity|]. split; auto.
Qed.
Lemma pre_encodes : forall S I (E : Encoder S I) (fmt : format I) P,
  rests E P -> encodes E fmt P P ->
  encodes (pre_encoder E) fmt (pre_idle P) (pre_idle P).
Proof.
  intros S I E fmt P RS ENC w i F.
  destruct (ENC w i F) as (f0 & A). exists (f0 + length w + io_buf_size + 1).
  intros [s b] [PP H]. cbn in PP. unfold bytes_eidle in H. cbn in H.
  intros fuel F'. destruct (encode_into_bytes_ok (fuel := fuel) RS (A s PP) ltac:(lia)) as (s' & X & PS).
  exists (mkPre s' (mkBytesEnc (Some w) 0)). split.
  - cbn. unfold pre_start. cbn. rewrite X. unfold bytes_start, bytes_enc_idle.
    rewrite H. reflexivity.
  - eapply emits_fuel; [|eexists; split; [apply pre_estep|]]; [lia|]. cbn. split; auto.
    destruct (A s PP f0 ltac:(lia)) as (? & _ & EM).
    split; [exact (emits_len EM)|]. cbn. exists []. auto.
Qed.

(** ** Last *)
Definition last_R S I (E : Encoder S I) f0 P (st : Last S I) (w : list byte) : Prop :=
  (len w <= isize_max)%N /\
  match la_item st with
  | Some i => P (la_inner st) /\ accepts E f0 P (la_inner st) i w
  | None => emits E f0 P (la_inner st) w
  end.
Lemma last_step : forall S I (E : Encoder S I) f0 P, rests E P ->
  estep_ok (last_encoder E) f0 (fun st => P (la_inner st) /\ la_item st = None) (last_R E f0 P).
Proof.
  intros S I E f0 P RS. unfold last_R.
  constructor.
  - intros st w [L _]; exact L.
  - intros [s [i|]] w [L H] id; cbn in *; [discriminate|]. destruct (emits_idle H id); auto.
  - intros [s [i|]] w [L H]; cbn in *; [right; auto|]. exact (emits_req H).
  - intros [s [i|]] w w' fuel buf e [L H] id LW NE NR F; cbn in H, id.
    + destruct H as [PP AC]. cbn. unfold last_encode. cbn. destruct (RS s PP) as (-> & _).
      destruct (AC fuel ltac:(lia)) as (s1 & -> & EM).
      destruct (enc_idle E s1) eqn:id1.
      { destruct (emits_idle EM id1) as [X _]. apply app_eq_nil in X. tauto. }
      destruct (emits_more EM id1 LW NE NR F) as (s2 & -> & id2 & H2).
      exists (mkLast s2 None). cbn. rewrite len_app in L. repeat split; auto. lia.
    + cbn. unfold last_encode. cbn. rewrite id.
      destruct (emits_more H id LW NE NR F) as (s2 & -> & id2 & H2).
      exists (mkLast s2 None). cbn. rewrite len_app in L. repeat split; auto. lia.
  - intros [s [i|]] w fuel buf e [L H] id LW F; cbn in H, id.
    + destruct H as [PP AC]. cbn. unfold last_encode. cbn. destruct (RS s PP) as (-> & _).
      destruct (AC fuel ltac:(lia)) as (s1 & -> & EM).
      destruct (enc_idle E s1) eqn:id1.
      * destruct (emits_idle EM id1) as [-> P1].
        destruct (RS s1 P1) as (_ & _ & A). destruct (A fuel buf e ltac:(lia)) as (s2 & -> & P2).
        exists (mkLast s2 None). cbn. destruct (RS s2 P2) as (-> & _). repeat split; auto.
        eapply emits_fuel; [|apply rests_emits; eauto]. lia.
      * destruct (emits_last e EM id1 LW F) as (s2 & -> & id2 & H2).
        exists (mkLast s2 None). cbn. repeat split; auto. unfold isize_max; lia.
    + cbn. unfold last_encode. cbn. rewrite id.
      destruct (emits_last e H id LW F) as (s2 & -> & id2 & H2).
      exists (mkLast s2 None). cbn. repeat split; auto. unfold isize_max; lia.
Qed.
Lemma last_emits : forall S I (E : Encoder S I) f0 P s i w,
  rests E P -> P s -> accepts E f0 P s i w ->
  emits (last_encoder E) f0 (fun st => P (la_inner st) /\ la_item st = None) (last_new s i) w.
Proof.
  intros S I E f0 P s i w RS PP AC. exists (last_R E f0 P). split; [now apply last_step|].
  unfold last_R. cbn. split; auto. destruct (AC f0 ltac:(lia)) as (? & _ & EM). exact (emits_len EM).
Qed.

(** ** Length over padding *)
Lemma len_repeat : forall (x : byte) n, len (repeat x n) = N.of_nat n.
Proof. intros. unfold len. now rewrite repeat_length. Qed.
Lemma map_const : forall A (x : byte) (l : list A), map (fun _ => x) l = repeat x (length l).
Proof. induction l; cbn; congruence. Qed.

Lemma pad_emits : forall b n, 0 < n -> (N.of_nat n <= isize_max)%N ->
  emits (length_encoder pad_encoder) 0
        (fun st => ln_inner st = None /\ ln_remaining st = 0%N /\ ln_expected st = N.of_nat n)
        (mkLength (Some b) (N.of_nat n) (N.of_nat n)) (repeat b n).
Proof.
  intros b n N0 NI.
  exists (fun st w => ln_expected st = N.of_nat n /\ (ln_remaining st <= isize_max)%N /\
            w = repeat b (N.to_nat (ln_remaining st)) /\
            ln_inner st = (if (ln_remaining st =? 0)%N then None else Some b)).
  split.
  2:{ cbn. replace (N.of_nat n =? 0)%N with false by lia. repeat split; auto. f_equal; lia. }
  constructor.
  - intros st w (X & L & -> & Y). rewrite len_repeat. lia.
  - intros [s x r] w (X & L & -> & Y) id. cbn in *. rewrite id in Y.
    apply N.eqb_eq in id. subst. auto.
  - intros [s x r] w (X & L & -> & Y). left. cbn. do 2 f_equal. rewrite len_repeat. lia.
  - intros [s x r] w w' fuel buf e (X & L & EQ & Y) id LW NE NR F. cbn in X, L, EQ, Y, id.
    rewrite id in Y. subst s x.
    assert (LL : length w + length w' = N.to_nat r).
    { rewrite <- app_length, EQ. apply repeat_length. }
    pose proof (length_nonnil NE).
    assert (W : w = repeat b (length buf) /\ w' = repeat b (N.to_nat r - length buf)).
    { rewrite <- LW. replace (N.to_nat r) with (length w + (N.to_nat r - length w)) in EQ by lia.
      rewrite repeat_app in EQ. apply app_inj_len in EQ; auto.
      rewrite repeat_length; auto. }
    destruct W as [-> ->].
    change (enc_encode (length_encoder pad_encoder)) with (length_encode pad_encoder).
    unfold length_encode. cbn [ln_remaining ln_inner ln_expected].
    replace (len buf <? r)%N with true by (unfold len; lia). rewrite NR. cbn [andb].
    rewrite firstn_all, skipn_all. cbn [enc_encode pad_encoder pad_encode]. rewrite NR.
    unfold u64_sub. replace (N.of_nat (length buf) <=? r)%N with true by lia.
    rewrite app_nil_r, map_const. cbn [enc_idle pad_encoder andb].
    eexists; split; [reflexivity|]. cbn.
    replace (r - N.of_nat (length buf) =? 0)%N with false by lia.
    repeat split; auto; try lia. f_equal. lia.
  - intros [s x r] w fuel buf e (X & L & -> & Y) id LW F. cbn in X, L, Y, id.
    rewrite id in Y. subst s x. cbn in LW. rewrite repeat_length in LW.
    change (enc_encode (length_encoder pad_encoder)) with (length_encode pad_encoder).
    unfold length_encode. cbn [ln_remaining ln_inner ln_expected].
    replace (len buf <? r)%N with false by (unfold len; lia). cbn [andb].
    cbn [enc_encode pad_encoder pad_encode is_reached eos_new bc_eqb]. cbn [N.eqb].
    rewrite firstn_length, Nat.min_l by lia.
    unfold u64_sub. replace (N.of_nat (N.to_nat r) <=? r)%N with true by lia.
    replace (r - N.of_nat (N.to_nat r))%N with 0%N by lia.
    rewrite map_const. rewrite firstn_length, Nat.min_l by lia. rewrite repeat_length.
    cbn. eexists; split; [reflexivity|]. cbn. repeat split; auto. unfold isize_max; lia.
Qed.
