(** * Every well-formed term meets the decoding and the encoding contract. *)
From Verif Require Export Universe DecPrim DecComb DecComb2 EncPrim EncComb EncComb2 Drive
  NumProofs Utf8Proofs.
Set Implicit Arguments.

Scheme codec_mut := Induction for codec Sort Prop
  with parts_mut := Induction for parts Sort Prop.
Combined Scheme codec_parts_ind from codec_mut, parts_mut.

(** ** Weakening of formats and state sets *)
Lemma decodes_sub : forall S I (D : Decoder S I) m (F G : format I) (P Q P' Q' : S -> Prop),
  decodes D m F P Q ->
  (forall w i, G w i -> F w i) -> (forall s, P' s -> P s) -> (forall s, Q s -> Q' s) ->
  decodes D m G P' Q'.
Proof.
  intros S I D m F G P Q P' Q' H HF HP HQ s w i p g.
  eapply parses_post; [exact HQ|]. apply H; auto.
Qed.
Lemma accepts_post : forall S I (E : Encoder S I) f0 (P Q : S -> Prop) s i w,
  accepts E f0 P s i w -> (forall s, P s -> Q s) -> accepts E f0 Q s i w.
Proof.
  intros S I E f0 P Q s i w H HQ fuel L. destruct (H fuel L) as (s' & A & B).
  exists s'; split; auto. eapply emits_post; eauto.
Qed.
Lemma encodes_sub : forall S I (E : Encoder S I) (F G : format I) (P Q P' Q' : S -> Prop),
  encodes E F P Q ->
  (forall w i, G w i -> F w i) -> (forall s, P' s -> P s) -> (forall s, Q s -> Q' s) ->
  encodes E G P' Q'.
Proof.
  intros S I E F G P Q P' Q' H HF HP HQ w i g. destruct (H w i (HF _ _ g)) as (f0 & K).
  exists f0. intros s p. eapply accepts_post; [apply K|]; auto.
Qed.

(** ** What is shown of every term *)
Definition dec_ok {S A} (D : Decoder S A) (m : mode) (F : format A) (s0 : S)
    (again busy : bool) : Prop :=
  exists Pre Post, decodes D m F Pre Post /\ Pre s0 /\
    (again = true -> forall s, Post s -> Pre s) /\
    (busy = true \/ m = ToEos -> forall s, Pre s -> dec_idle D s = false).
Definition enc_ok {S A} (E : Encoder S A) (F : format A) (s0 : S) (again : bool) : Prop :=
  exists Pre Post, encodes E F Pre Post /\ Pre s0 /\
    (again = true -> rests E Pre /\ forall s, Post s -> Pre s).

Lemma dec_ok_again : forall S A (D : Decoder S A) m F s0 b,
  dec_ok D m F s0 true b -> exists P, decodes D m F P P /\ P s0 /\
    (b = true \/ m = ToEos -> forall s, P s -> dec_idle D s = false).
Proof.
  intros S A D m F s0 b (P & Q & H & H0 & HA & HB). exists P; repeat split; auto.
  eapply decodes_sub; eauto.
Qed.
Lemma enc_ok_again : forall S A (E : Encoder S A) F s0,
  enc_ok E F s0 true -> exists P, encodes E F P P /\ P s0 /\ rests E P.
Proof.
  intros S A E F s0 (P & Q & H & H0 & HA). destruct HA as [R HA]; auto.
  exists P; repeat split; try (apply R; auto); auto. eapply encodes_sub; eauto.
Qed.
Lemma dec_ok_1 : forall S A (D : Decoder S A) m F s0 again busy (P : S -> Prop),
  decodes D m F P P -> P s0 -> (busy = true \/ m = ToEos -> forall s, P s -> dec_idle D s = false) ->
  dec_ok D m F s0 again busy.
Proof. intros. exists P, P; auto. Qed.
Lemma enc_ok_1 : forall S A (E : Encoder S A) F s0 again (P : S -> Prop),
  encodes E F P P -> P s0 -> rests E P -> enc_ok E F s0 again.
Proof. intros. exists P, P; auto. Qed.

(** ** Numbers *)
Lemma uwidth_8 : forall k, uwidth k <= 8. Proof. destruct k; cbn; lia. Qed.
Lemma swidth_8 : forall k, 0 < swidth k <= 8. Proof. destruct k; cbn; lia. Qed.
Lemma uwidth_pos : forall k, 0 < uwidth k. Proof. destruct k; cbn; lia. Qed.

Lemma unum_dec : forall k, decodes (udec k) SD (fun w n => num_bytes k n w)
  (num_ready (uwidth k)) (num_ready (uwidth k)).
Proof.
  intros k. destruct k; (apply num_decodes; [cbn; lia|]);
    intros w n [L V]; (split; [exact L|]); rewrite <- V;
    first [apply read_be_value | apply read_le_value].
Qed.
Lemma unum_fresh : forall k, num_ready (uwidth k) (udec0 k).
Proof. destruct k; apply num_ready_new. Qed.
Lemma max_item_ok : forall mx width f w n value, (256 ^ N.of_nat width = mx + 1)%N ->
  (forall l, (value l < 256 ^ N.of_nat (length l))%N) ->
  ufmt value width w n -> f n = w -> max_item mx f n = inl w.
Proof.
  intros mx width f w n value E B [L V] F. unfold max_item.
  specialize (B w). rewrite L, V, E in B. replace (n <=? mx)%N with true by lia. now rewrite F.
Qed.
Lemma unum_enc : forall k, encodes (uenc k) (fun w n => num_bytes k n w)
  (@bytes_eidle (list byte)) (@bytes_eidle (list byte)).
Proof.
  intros k.
  destruct k; (lazymatch goal with |- encodes (uenc ?k) _ _ _ => apply (@num_enc_encodes _ _ _ (uwidth k)) end; [cbn; lia|]);
    intros w n [L V]; (split; [exact L|]);
    first [ unfold total_item; f_equal; first [apply ube_write | apply ule_write]; split; assumption
          | apply (@max_item_ok _ 3 _ w n be_value); [reflexivity|exact be_value_lt|split; assumption|apply ube_write; split; assumption]
          | apply (@max_item_ok _ 3 _ w n le_value); [reflexivity|exact le_value_lt|split; assumption|apply ule_write; split; assumption]
          | apply (@max_item_ok _ 5 _ w n be_value); [reflexivity|exact be_value_lt|split; assumption|apply ube_write; split; assumption]
          | apply (@max_item_ok _ 5 _ w n le_value); [reflexivity|exact le_value_lt|split; assumption|apply ule_write; split; assumption]
          | apply (@max_item_ok _ 6 _ w n be_value); [reflexivity|exact be_value_lt|split; assumption|apply ube_write; split; assumption]
          | apply (@max_item_ok _ 6 _ w n le_value); [reflexivity|exact le_value_lt|split; assumption|apply ule_write; split; assumption]
          | apply (@max_item_ok _ 7 _ w n be_value); [reflexivity|exact be_value_lt|split; assumption|apply ube_write; split; assumption]
          | apply (@max_item_ok _ 7 _ w n le_value); [reflexivity|exact le_value_lt|split; assumption|apply ule_write; split; assumption]].
Qed.
Lemma unum_rests : forall k, rests (uenc k) (@bytes_eidle (list byte)).
Proof. destruct k; apply num_rests. Qed.
Lemma unum_idle : forall k s, num_ready (uwidth k) s -> dec_idle (udec k) s = false.
Proof.
  intros k [b off] [A B]. cbn in A, B. subst off. pose proof (uwidth_pos k).
  destruct k; cbn in *; rewrite B; reflexivity.
Qed.
Lemma snum_dec : forall k,
  decodes (sdec k) SD (fun w z => length w = swidth k /\ twos_complement (swidth k) z (svalue k w))
    (num_ready (swidth k)) (num_ready (swidth k)).
Proof.
  intros k. destruct k; (apply num_decodes; [cbn; lia|]);
    intros w n [L V]; (split; [exact L|]); apply as_signed_twos; try (cbn; lia);
    first [rewrite read_be_value | rewrite read_le_value]; exact V.
Qed.
Lemma snum_fresh : forall k, num_ready (swidth k) (sdec0 k).
Proof. destruct k; apply num_ready_new. Qed.
Lemma snum_enc : forall k,
  encodes (senc k) (fun w z => length w = swidth k /\ twos_complement (swidth k) z (svalue k w))
  (@bytes_eidle (list byte)) (@bytes_eidle (list byte)).
Proof.
  intros k.
  destruct k; (lazymatch goal with |- encodes (senc ?k) _ _ _ => apply (@num_enc_encodes _ _ _ (swidth k)) end; [cbn; lia|]);
    intros w n [L V]; (split; [exact L|]); unfold total_item; f_equal;
    first [apply ube_write | apply ule_write]; (split; [exact L|]);
    symmetry; apply as_unsigned_twos; try (cbn; lia); exact V.
Qed.
Lemma snum_rests : forall k, rests (senc k) (@bytes_eidle (list byte)).
Proof. destruct k; apply num_rests. Qed.
Lemma snum_idle : forall k s, num_ready (swidth k) s -> dec_idle (sdec k) s = false.
Proof.
  intros k [b off] [A B]. cbn in A, B. subst off. pose proof (swidth_8 k).
  destruct k; cbn in *; rewrite B; reflexivity.
Qed.

(** ** Items that take at least one byte *)
Lemma nonempty_ok :
  (forall A (c : codec A), nonempty c = true -> forall w i, reads c w i -> w <> []) /\
  (forall A (p : parts A), pnonempty p = true -> forall w i, preads p w i -> w <> []).
Proof.
  apply codec_parts_ind; cbn; intros.
  - destruct H0 as [L _]. pose proof (uwidth_pos k). intros ->; cbn in *; lia.
  - destruct H0 as [L _]. pose proof (swidth_8 k). intros ->; cbn in *; lia.
  - discriminate.
  - destruct H0 as (-> & L & _). destruct n; [discriminate|]. destruct i; discriminate.
  - destruct H0 as (-> & L & _). destruct n; [discriminate|]. destruct i; discriminate.
  - discriminate.
  - discriminate.
  - destruct H0 as (_ & L & _). destruct n; [discriminate|]. destruct w; discriminate.
  - destruct H0 as (-> & _). destruct n; discriminate.
  - discriminate.
  - eauto.
  - destruct H1 as (a & K & _); eauto.
  - destruct H1 as (a & K & _); eauto.
  - eauto.
  - destruct i; destruct H1 as [-> K]; [|discriminate]. apply andb_prop in H0. destruct H0; eauto.
  - destruct H1 as [K <-]. apply orb_prop in H0. destruct H0; eauto. intros ->; discriminate.
  - destruct H1 as [K <-]. apply orb_prop in H0. destruct H0; eauto. intros ->; discriminate.
  - destruct H1; eauto.
  - eauto.
  - destruct H1 as [K Q]. apply orb_prop in H0. destruct H0; eauto. destruct (delim c); try discriminate; auto.
  - eauto.
  - discriminate.
  - destruct H1 as (_ & (ws & -> & K) & L). apply andb_prop in H0. destruct H0 as [N0 N1].
    destruct K; cbn in *; [subst; discriminate|]. specialize (H N1 _ _ H0).
    destruct x; cbn; congruence.
  - destruct H1 as (_ & w0 & w1 & -> & [L _] & _). pose proof (uwidth_pos k).
    destruct w0; cbn in *; [lia|discriminate].
  - destruct H1 as (_ & w0 & w1 & -> & [L _] & _). pose proof (uwidth_pos k).
    destruct w0; cbn in *; [lia|discriminate].
  - destruct H1 as (_ & w0 & w1 & n & -> & [L _] & _). pose proof (uwidth_pos k).
    destruct w0; cbn in *; [lia|discriminate].
  - destruct H2 as (_ & w0 & w1 & -> & A0 & A1). apply orb_prop in H1. destruct H1 as [E|E].
    + specialize (H E _ _ A0). destruct w0; cbn; congruence.
    + specialize (H0 E _ _ A1). destruct w0; cbn; congruence.
  - destruct H2 as (_ & w0 & w1 & -> & A0 & A1). apply orb_prop in H1. destruct H1 as [E|E].
    + specialize (H E _ _ A0). destruct w0; cbn; congruence.
    + specialize (H0 E _ _ A1). destruct w0; cbn; congruence.
Qed.


(** ** Everything that is written can be read *)
Lemma forall2_sub : forall X Y (P Q : X -> Y -> Prop) l m,
  (forall x y, P x y -> Q x y) -> Forall2 P l m -> Forall2 Q l m.
Proof. intros X Y P Q l m H F; induction F; auto. Qed.
Lemma wire_reads :
  (forall A (c : codec A) w i, wire c w i -> reads c w i) /\
  (forall A (p : parts A) w i, pwire p w i -> preads p w i).
Proof.
  apply codec_parts_ind; cbn; intros; auto.
  - destruct H as (E & L & _); auto.
  - destruct H0; eauto.
  - destruct H0 as (a & E1 & E2 & W); eauto.
  - destruct i; destruct H0; auto.
  - destruct H0; auto.
  - destruct H0; auto.
  - destruct H0; auto.
  - destruct H0; auto.
  - destruct H0 as (F & ws & E & K). split; auto. exists ws; split; auto. eapply forall2_sub; eauto.
  - destruct H0 as (F & (ws & E & K) & L). split; auto. split; auto.
    exists ws; split; auto. eapply forall2_sub; eauto.
  - destruct H0 as (F & w0 & w1 & E & W & _ & Nb). split; auto. exists w0, w1; auto.
  - destruct H0 as (F & w0 & w1 & E & (ws & E1 & K) & Nb). split; auto. exists w0, w1; split; auto. split; auto.
    exists ws; split; auto. eapply forall2_sub; eauto.
  - destruct H0 as (F & w0 & w1 & E & K). split; auto. exists w0, w1.
    destruct i as [a|]; destruct K as [Nb K].
    + exists 1%N. repeat split; auto; try apply Nb. discriminate.
    + exists 0%N. repeat split; auto; try apply Nb.
  - destruct H1 as (F & w0 & w1 & E & K0 & K1). split; auto. exists w0, w1; auto.
  - destruct H1 as (F & w0 & w1 & E & K0 & K1). split; auto. exists w0, w1; auto.
Qed.
Lemma nonempty_wire : forall A (c : codec A), nonempty c = true -> forall w i, wire c w i -> w <> [].
Proof. intros A c N w i W. eapply (proj1 nonempty_ok); eauto. apply wire_reads; eauto. Qed.

(** ** Decoders *)
Definition code_dec_ok A (c : codec A) : Prop :=
  wf c -> dec_ok (decoder c) (delim c) (reads c) (dec_fresh c) (dec_again c) (busy c).
Definition part_dec_ok A (p : parts A) : Prop :=
  pwf p -> parts_ok (psem_dec (psem p)) /\
  dec_ok (tuple_of_dec_parts (psem_dec (psem p))) (pdelim p) (preads p) (pdec0 (psem p))
         (pdec_again p) (pbusy p).

Lemma copy_ok : forall n, (N.of_nat n <= isize_max)%N ->
  decodes (copy_decoder vec_box) SD (fun w b => w = b /\ length b = n /\ fits w)
    (num_ready n) (num_ready n).
Proof.
  intros n L. eapply decodes_sub; [apply (@copy_decodes _ vec_box vec_box_ok (repeat x00 n))|..].
  - cbn. rewrite len_repeat. exact L.
  - intros w i (-> & K & _). split; cbn; auto. now rewrite repeat_length.
  - intros [b off] [A B]. cbn in *. split; auto. exists b. cbn. now rewrite repeat_length.
  - intros [b off] (A & l & B & C). cbn in *. rewrite repeat_length in B. split; auto. cbn. congruence.
Qed.
Lemma copy_idle : forall n s, num_ready n s -> negb (n =? 0) = true ->
  dec_idle (copy_decoder vec_box) s = false.
Proof.
  intros n [b off] [A B] H. cbn in *. subst. destruct b; [discriminate|]. reflexivity.
Qed.

Lemma cdec_pair : forall S0 S1 I0 I1 (D0 : Decoder S0 I0) (D1 : Decoder S1 I1) m F0 F1 s0 s1 a0 b0 a1 b1,
  dec_ok D0 SD F0 s0 a0 b0 -> dec_ok D1 m F1 s1 a1 b1 ->
  dec_ok (tuple2_decoder D0 D1) m (fun w i => fits w /\
      exists w0 w1, w = w0 ++ w1 /\ F0 w0 (fst i) /\ F1 w1 (snd i)) (s0, s1) (a0 && a1) (b0 || b1).
Proof.
  intros S0 S1 I0 I1 D0 D1 m F0 F1 s0 s1 a0 b0 a1 b1 (P0 & Q0 & H0 & K0 & A0 & B0)
    (P1 & Q1 & H1 & K1 & A1 & B1).
  exists (fun s => P0 (fst s) /\ P1 (snd s)), (fun s => Q0 (fst s) /\ Q1 (snd s)).
  split; [|split; [auto|split]].
  - intros [t0 t1] w [i0 i1] [T0 T1] (L & w0 & w1 & -> & f0 & f1). cbn in T0, T1, f0, f1.
    apply pair_parses; auto.
  - intros E. apply andb_prop in E. destruct E as [-> ->]. intros [t0 t1] [T0 T1]. auto.
  - intros E [t0 t1] [T0 T1]. cbn in *. destruct E as [E|E].
    + apply orb_prop in E. destruct E as [->| ->].
      * rewrite B0; auto.
      * rewrite (B1 (or_introl eq_refl)); auto. apply andb_false_r.
    + rewrite (B1 (or_intror E)); auto. apply andb_false_r.
Qed.

Lemma dec_ok_ext : forall S I (D D' : Decoder S I) m F s0 a b,
  dec_sim D D' -> (forall s, dec_idle D' s = dec_idle D s) ->
  dec_ok D m F s0 a b -> dec_ok D' m F s0 a b.
Proof.
  intros S I D D' m F s0 a b Sm Id (P & Q & H & K & A & B). exists P, Q; repeat split; auto.
  - intros s w i p f. eapply parses_ext; eauto.
  - intros E s p. rewrite Id. auto.
Qed.

Ltac four := split; [|split; [|split]].

Lemma and_then_ok : forall S1 I0 I1 k (D1 : Decoder S1 I1) (f : I0 -> S1) (D0 : Decoder NumDec I0)
    m F0 (F1 : I0 -> format I1) (F : format I1) Q1 (R := num_ready (uwidth k)),
  decodes D0 SD F0 R R -> (forall w i, F0 w i -> w <> []) ->
  (forall w i, F w i -> fits w /\ exists w0 w1 i0, w = w0 ++ w1 /\ F0 w0 i0 /\ F1 i0 w1 i) ->
  (forall i0 w i, F1 i0 w i -> parses D1 m Q1 (f i0) w i) ->
  (m = ToEos -> forall i0, dec_idle D1 (f i0) = false) ->
  dec_ok (and_then_decoder D0 D1 f) m F (and_then_new (udec0 k)) true true.
Proof.
  intros S1 I0 I1 k D1 f D0 m F0 F1 F Q1 R H0 NE HF H1 TE.
  exists (fun st => R (at_inner0 st) /\ at_inner1 st = None),
         (fun st => R (at_inner0 st) /\ at_inner1 st = None).
  four; auto.
  - intros [s0 s1] w i [A B] f1. cbn in A, B. subst s1.
    destruct (HF w i f1) as (L & w0 & w1 & i0 & -> & X0 & X1).
    eapply parses_post; [|eapply and_then_parses with (P0 := R) (P1 := Q1); eauto]; auto.
  - cbn. split; auto. apply unum_fresh.
  - intros _ [s0 s1] [_ B]. cbn in *. now rewrite B.
Qed.

Lemma num_bytes_nonnil : forall k n w, num_bytes k n w -> w <> [].
Proof. intros k n w [L _] ->. pose proof (uwidth_pos k). cbn in L; lia. Qed.

Lemma term_dec_ok :
  (forall A (c : codec A), code_dec_ok c) /\ (forall A (p : parts A), part_dec_ok p).
Proof.
  apply codec_parts_ind; unfold code_dec_ok, part_dec_ok, decoder, dec_fresh; cbn.
  - intros k _. eapply dec_ok_1; [apply unum_dec|apply unum_fresh|].
    intros _. apply unum_idle.
  - intros k _. eapply dec_ok_1; [apply snum_dec|apply snum_fresh|].
    intros _. apply snum_idle.
  - intros _. eapply dec_ok_1; [apply null_decodes|exact I|]. intros [E|E]; discriminate.
  - intros n L. eapply dec_ok_1; [apply copy_ok; auto|apply num_ready_new|].
    intros [E|E]; [|discriminate]. intros s R; eapply copy_idle; eauto.
  - intros n L. exists (bytes_ready (repeat x00 n)), (fun st => bd_bytes st = None).
    four; [|now split|discriminate|].
    + eapply decodes_sub; [apply (@bytes_decodes _ vec_box vec_box_ok (repeat x00 n))|..]; auto.
      * cbn. rewrite len_repeat. exact L.
      * intros w i (-> & K & _). split; cbn; auto. now rewrite repeat_length.
    + intros [E|E]; [|discriminate]. intros [b off] [A B]. cbn in A, B. subst.
      destruct n; [discriminate|]. reflexivity.
  - intros _. eapply dec_ok_1 with (P := rem_ready); [|reflexivity|].
    + eapply decodes_sub; [apply rem_decodes|..]; auto. intros w i [-> L]. split; auto.
    + intros _ s ->. reflexivity.
  - intros _. eapply dec_ok_1 with (P := rem_ready); [|reflexivity|].
    + intros s w i r [U L]. eapply utf8_parses; [apply rem_decodes; auto|].
      * split; [reflexivity|exact L].
      * now apply from_utf8_complete.
    + intros _ s ->. reflexivity.
  - intros n L. eapply dec_ok_1 with (P := num_ready n); [|apply num_ready_new|].
    + intros s w i r (U & K & Ft). eapply utf8_parses; [apply (copy_ok L); auto|].
      now apply from_utf8_complete.
    + intros [E|E]; [|discriminate]. intros s R. eapply copy_idle; eauto.
  - intros b n [N0 L]. eapply dec_ok_1 with (P := fun st => pad_ready (Some b) (ln_inner st) /\
      ln_expected st = N.of_nat n /\ ln_remaining st = N.of_nat n); [|cbn; repeat split|].
    + intros [s0 ex rm] w i (R0 & R1 & R2) [-> Ft]. cbn in R0, R1, R2. subst ex rm.
      rewrite <- (len_repeat b n). eapply length_parses. apply pad_decodes; auto.
      split; auto. intros c [= ->]. clear. induction n; cbn; auto.
    + intros _ [s0 ex rm] (R0 & _). cbn in *. rewrite R0. reflexivity.
  - intros A f g _. eapply dec_ok_1 with (P := mono_ready); [|reflexivity|].
    + eapply decodes_sub; [apply mono_decodes|..]; auto.
    + intros _ s ->. reflexivity.
  - intros A p IH W. destruct (IH W) as [_ H]. exact H.
  - intros A B f g c IH W. destruct (IH W) as (P & Q & H & K & HA & HB).
    exists P, Q; four; auto. intros s w b p (a & Wc & E). rewrite <- E.
    apply map_parses. auto.
  - intros A B f g c IH W. destruct (IH W) as (P & Q & H & K & HA & HB).
    exists P, Q; four; auto. intros s w b p (a & Wc & E).
    eapply try_map_parses; eauto.
  - intros A f g c IH W. destruct (IH W) as (P & Q & H & K & HA & HB).
    exists P, Q; four; auto. intros s w b p Wc.
    eapply map_err_parses; eauto.
  - intros A omitted c IH [W _]. destruct (IH W) as (P & Q & H & K & HA & HB).
    destruct omitted.
    + exists (fun st => om_omit st = true), (fun st => om_omit st = true). four; auto.
      * intros [s b] w i E F. cbn in E; subst b. destruct i; destruct F as [E F]; [discriminate|].
        subst w. eapply parses_post; [|apply omit_true_parses]. intros ? ->; reflexivity.
      * intros [E|E]; discriminate.
    + exists (fun st => om_omit st = false /\ P (om_inner st)), (fun st => om_omit st = false /\ Q (om_inner st)).
      four; [|now auto| |].
      * intros [s b] w i [E p] F. cbn in E, p; subst b. destruct i; destruct F as [E F]; [|discriminate].
        apply omit_false_parses. auto.
      * intros E s [R0 R1]; auto.
      * cbn. intros E [s b] [E1 p]. cbn in *. subst. cbn. auto.
  - intros A n c IH W. destruct (IH W) as (P & Q & H & K & HA & HB).
    exists (fun st => P (ln_inner st) /\ ln_expected st = n /\ ln_remaining st = n),
           (fun st => Q (ln_inner st) /\ ln_expected st = n /\ ln_remaining st = n).
    four; [|now auto| |].
    + intros [s0 ex rm] w i (R0 & R1 & R2) [F <-]. cbn in R0, R1, R2. subst ex rm.
      eapply length_parses; auto.
    + intros E s (R0 & R1 & R2); auto.
    + intros [E|E]; [|discriminate]. intros [s0 ex rm] (R0 & _). cbn in *. auto.
  - intros A n c IH [W _]. destruct (IH W) as (P & Q & H & K & HA & HB).
    exists (fun st => P (ln_inner st) /\ ln_expected st = n /\ ln_remaining st = n),
           (fun st => Q (ln_inner st) /\ ln_expected st = n /\ ln_remaining st = n).
    four; [|now auto| |].
    + intros [s0 ex rm] w i (R0 & R1 & R2) [F <-]. cbn in R0, R1, R2. subst ex rm.
      eapply length_parses; auto.
    + intros E s (R0 & R1 & R2); auto.
    + intros [E|E]; [|discriminate]. intros [s0 ex rm] (R0 & _). cbn in *. auto.
  - intros A n c IH [W L]. destruct (IH W) as (P & Q & H & K & HA & HB).
    exists (fun st => P (mx_inner st) /\ mx_consumed st = 0%N /\ mx_max st = n),
           (fun st => Q (mx_inner st) /\ mx_consumed st = 0%N /\ mx_max st = n).
    four; [|now auto| |].
    + intros [s0 cs mx] w i (R0 & R1 & R2) [F Le]. cbn in R0, R1, R2. subst cs mx.
      eapply max_parses; auto.
      * destruct (delim c); discriminate.
      * specialize (H s0 w i R0 F). destruct (delim c); auto. apply parses_sd_exact; auto.
    + intros E s (R0 & R1 & R2); auto.
    + intros E [s0 cs mx] (R0 & _). cbn in *. apply HB; auto. destruct E; auto.
      right. destruct (delim c); auto; discriminate.
  - intros A c IH [W Bz]. destruct (IH W) as (P & Q & H & K & HA & HB).
    exists (fun st => P (pk_inner st) /\ pk_item st = None),
           (fun st => Q (pk_inner st) /\ pk_item st = None).
    four; [|now auto| |].
    + intros [s0 it] w i (R0 & R1) F. cbn in R0, R1. subst it.
      apply peek_parses; auto.
    + intros E s (R0 & R1); auto.
    + intros E [s0 it] (_ & R0). cbn in *. now rewrite R0.
  - intros A c IH W. destruct (IH W) as (P & Q & H & K & HA & HB).
    exists (fun st => P (my_inner st) /\ my_started st = false),
           (fun st => Q (my_inner st) /\ my_started st = false).
    four; [|now auto| |].
    + intros [s0 it] w i (R0 & R1) [F Ne]. cbn in R0, R1. subst it.
      apply maybe_parses; auto.
    + intros E s (R0 & R1); auto.
    + intros E [s0 it] (R0 & _). cbn in *. auto.
  - intros A c IH [W _]. auto.
  - intros A c IH (W & M & N0 & Da & _ & Inh). specialize (IH W). rewrite Da in IH.
    destruct (dec_ok_again IH) as (P & H & K & _). rewrite M in H.
    eapply dec_ok_1 with (P := fun st => P (cl_inner st) /\ cl_items st = [] /\ cl_eos st = false);
      [|cbn; auto|].
    + intros [s it eos] w i (R0 & R1 & R2) (Ft & Sq). cbn in R0, R1, R2. subst it eos.
      eapply collect_parses; eauto. exact (proj1 nonempty_ok _ c N0).
    + intros _ [s it eos] (_ & _ & R2). exact R2.
  - intros A n c IH (W & M & N0 & Da & _). specialize (IH W). rewrite Da in IH.
    destruct (dec_ok_again IH) as (P & H & K & _). rewrite M in H.
    exists (fun st => P (cn_inner st) /\ cn_remaining st = n /\ cn_items st = []),
           (fun st => P (cn_inner st) /\ cn_remaining st = 0 /\ cn_items st = []).
    four; [|now auto|discriminate|].
    + intros [s rm it] w i (R0 & R1 & R2) (Ft & Sq & L). cbn in R0, R1, R2. subst.
      eapply collectn_parses; eauto. exact (proj1 nonempty_ok _ c N0).
    + intros [E|E]; [|discriminate]. intros [s rm it] (_ & R1 & _). cbn in *. subst. destruct n; auto.
  - intros A k size c IH W. destruct (IH W) as (P & Q & H & K & HA & HB).
    eapply and_then_ok with (F0 := fun w n => num_bytes k n w)
      (Q1 := fun _ => True) (F1 := fun n w i => reads c w i /\ len w = n);
      [apply unum_dec|intros; eapply num_bytes_nonnil; eauto|..|discriminate].
    + intros w i (Ft & w0 & w1 & -> & Nb & Wc). split; auto. exists w0, w1, (len w1). auto.
    + intros n w i [Wc <-]. eapply parses_post; [|eapply length_parses; eauto]. auto.
  - intros A k c IH (W & M & N0 & Da & _). specialize (IH W). rewrite Da in IH.
    destruct (dec_ok_again IH) as (P & H & K & _). rewrite M in H.
    eapply and_then_ok with (F0 := fun w n => num_bytes k n w)
      (F1 := fun n w i => fits w /\ seq_fmt (reads c) w i /\ N.of_nat (length i) = n);
      [apply unum_dec|intros; eapply num_bytes_nonnil; eauto|..|discriminate].
    + intros w i (Ft & w0 & w1 & -> & Nb & Wc). split; auto. exists w0, w1, (N.of_nat (length i)).
      repeat split; auto; try apply Nb. unfold fits in *. rewrite len_app in Ft. lia.
    + intros n w i (Ft & Sq & <-). rewrite Nat2N.id.
      eapply collectn_parses; eauto. exact (proj1 nonempty_ok _ c N0).
  - intros A k c IH (W & _ & M). destruct (IH W) as (P & Q & H & K & HA & HB).
    eapply and_then_ok with (F0 := fun w n => num_bytes k n w) (Q1 := fun _ => True)
      (F1 := fun n w i => match i with None => n = 0%N /\ w = [] | Some a => n <> 0%N /\ reads c w a end);
      [apply unum_dec|intros; eapply num_bytes_nonnil; eauto|..|congruence].
    + intros w i (Ft & w0 & w1 & n & -> & X). split; auto. exists w0, w1, n; auto.
    + intros n w [a|] [X F1].
      * replace (n =? 0)%N with false by lia.
        eapply parses_post; [|apply omit_false_parses; auto]. auto.
      * subst n w. eapply parses_post; [|apply omit_true_parses]. auto.
  - intros A B c IH c' IH' (W & W' & M). specialize (IH W). rewrite M in IH. specialize (IH' W').
    split; [apply dp_snoc_ok, dp_one_ok|]. eapply cdec_pair; eauto.
  - intros A B p IH c IH' (W & W' & M). destruct (IH W) as [OK H]. rewrite M in H. specialize (IH' W').
    split; [now apply dp_snoc_ok|].
    eapply dec_ok_ext; [apply tuple_snoc_eq; auto|reflexivity|].
    eapply cdec_pair; eauto.
Qed.

(** ** Encoders *)
Definition code_enc_ok A (c : codec A) : Prop :=
  wf c -> enc_ok (encoder c) (wire c) (enc_fresh c) (enc_again c).
Definition part_enc_ok A (p : parts A) : Prop :=
  pwf p -> eparts_ok (psem_enc (psem p)) /\
  enc_ok (tuple_of_enc_parts (psem_enc (psem p))) (pwire p) (penc0 (psem p)) (penc_again p).

Lemma enc_ok_sub : forall S I (E : Encoder S I) (F G : format I) s0 a,
  enc_ok E F s0 a -> (forall w i, G w i -> F w i) -> enc_ok E G s0 a.
Proof.
  intros S I E F G s0 a (P & Q & H & K & HA) FG. exists P, Q; split; [|auto].
  eapply encodes_sub; eauto.
Qed.
Lemma enc_ok_weak : forall S I (E : Encoder S I) (F : format I) s0 a,
  enc_ok E F s0 true -> enc_ok E F s0 a.
Proof.
  intros S I E F s0 a H. destruct (enc_ok_again H) as (P & H1 & H2 & H3).
  eapply enc_ok_1; eauto.
Qed.
Lemma cenc_pair : forall S0 S1 I0 I1 (E0 : Encoder S0 I0) (E1 : Encoder S1 I1) F0 F1 s0 s1 a0 a1,
  enc_ok E0 F0 s0 a0 -> enc_ok E1 F1 s1 a1 ->
  enc_ok (tuple2_encoder E0 E1) (pair_fmt F0 F1) (s0, s1) (a0 && a1).
Proof.
  intros S0 S1 I0 I1 E0 E1 F0 F1 s0 s1 a0 a1 (P0 & Q0 & H0 & K0 & A0) (P1 & Q1 & H1 & K1 & A1).
  exists (fun s => P0 (fst s) /\ P1 (snd s)), (fun s => Q0 (fst s) /\ Q1 (snd s)).
  split; [|split].
  - apply pair_encodes; auto.
  - auto.
  - intros E. apply andb_prop in E. destruct E as [-> ->]. destruct A0, A1; auto.
    split; [apply pair_rests; auto|]. intros s [T0 T1]. auto.
Qed.
Lemma cenc_map : forall S I T (E : Encoder S I) (f : T -> I) F (G : format T) s0 a,
  enc_ok E F s0 a -> (forall w t, G w t -> F w (f t)) -> enc_ok (map_from_encoder E f) G s0 a.
Proof.
  intros S I T E f F G s0 a (P & Q & H & K & HA) FG. exists P, Q; split; [|split; auto].
  - eapply encodes_sub; [apply (map_from_encodes f H)|..]; auto.
Qed.
Lemma cenc_optional : forall S I (E : Encoder S I) F s0,
  enc_ok E F s0 true ->
  enc_ok (optional_encoder E)
    (fun w o => match o with Some i => F w i | None => w = [] end) s0 true.
Proof.
  intros S I E F s0 H. destruct (enc_ok_again H) as (P & H1 & H2 & H3).
  eapply enc_ok_1; [apply optional_encodes; eauto|auto|apply optional_rests; auto].
Qed.
Lemma cenc_repeat : forall S I (E : Encoder S I) F s0,
  enc_ok E F s0 true -> (forall w i, F w i -> w <> []) ->
  enc_ok (repeat_encoder E) (eseq_fmt F) (repeat_new s0) true.
Proof.
  intros S I E F s0 H NE. destruct (enc_ok_again H) as (P & H1 & H2 & H3).
  eapply enc_ok_1; [apply repeat_encodes; eauto|cbn; auto|apply repeat_rests; auto].
Qed.
Lemma unum_enc_ok : forall k, enc_ok (uenc k) (fun w n => num_bytes k n w) num_enc_new true.
Proof. intros. eapply enc_ok_1 with (P := @bytes_eidle _); [apply unum_enc|reflexivity|apply unum_rests]. Qed.
Lemma bytes_enc_ok : forall (F : format (list byte)), (forall w i, F w i -> w = i /\ fits w) ->
  enc_ok (bytes_encoder vec_box) F bytes_enc_new true.
Proof.
  intros F HF. eapply enc_ok_1 with (P := @bytes_eidle _); [|reflexivity|apply bytes_rests].
  eapply encodes_sub; [apply bytes_encodes|..]; auto.
Qed.
Lemma utf8_enc_ok : forall (F : format (list N)), (forall w i, F w i -> utf8 i w /\ fits w) ->
  enc_ok utf8_encoder F utf8_enc_new true.
Proof.
  intros F HF. eapply enc_ok_1 with (P := @bytes_eidle _); [|reflexivity|apply utf8_rests].
  eapply encodes_sub; [apply utf8_encodes|..]; auto. intros w i f. destruct (HF _ _ f) as [U L].
  split; auto. cbn. now apply utf8_unique.
Qed.

Lemma term_enc_ok :
  (forall A (c : codec A), code_enc_ok c) /\ (forall A (p : parts A), part_enc_ok p).
Proof.
  apply codec_parts_ind; unfold code_enc_ok, part_enc_ok, encoder, enc_fresh; cbn.
  - intros k _. apply unum_enc_ok.
  - intros k _. eapply enc_ok_1 with (P := @bytes_eidle _); [apply snum_enc|reflexivity|apply snum_rests].
  - intros _. eapply enc_ok_1; [apply null_encodes|exact I|apply null_rests].
  - intros n _. apply bytes_enc_ok. intros w i (E & _ & L); auto.
  - intros n _. apply bytes_enc_ok. intros w i (E & _ & L); auto.
  - intros _. apply bytes_enc_ok. intros w i (E & L); auto.
  - intros _. apply utf8_enc_ok. auto.
  - intros n _. apply utf8_enc_ok. intros w i (E & _ & L); auto.
  - intros b n [N0 L].
    exists (fun st => ln_inner st = None /\ ln_expected st = N.of_nat n /\ ln_remaining st = N.of_nat n),
      (fun st => ln_inner st = None /\ ln_remaining st = 0%N /\ ln_expected st = N.of_nat n).
    split; [|split; [auto|discriminate]].
    intros w i [-> Ft]. exists 0. intros [s0 ex rm] (R0 & R1 & R2). cbn in R0, R1, R2. subst.
    intros fuel _. cbn. rewrite N.eqb_refl.
    eexists; split; [reflexivity|]. destruct (pad_emits b N0 L) as (R & H & r).
    exists R; split; auto. destruct H; constructor; auto.
  - intros A f g _. eapply enc_ok_1 with (P := mono_eidle); [|cbn; repeat split|apply mono_rests].
    eapply encodes_sub; [apply mono_encodes|..]; auto.
    intros w i (_ & L & chunks & E1 & E2). exists chunks; auto.
  - intros A p IH W. destruct (IH W) as [_ H]. exact H.
  - intros A B f g c IH W. eapply cenc_map; [apply (IH W)|]. intros w t [H _]; exact H.
  - intros A B f g c IH W. destruct (IH W) as (P & Q & H & K & HA). exists P, Q; split; [|split; auto].
    + eapply encodes_sub; [apply (try_map_from_encodes g H)|..]; auto.
      intros w t (a & E1 & _ & E2). eauto.
  - intros A f g c IH W. destruct (IH W) as (P & Q & H & K & HA). exists P, Q; split; [|split; auto].
    + apply map_err_encodes; auto.
    + intros Ea. destruct (HA Ea). split; auto. apply map_err_rests; auto.
  - intros A omitted c IH [W Ea]. specialize (IH W). rewrite Ea in *.
    eapply enc_ok_sub; [apply cenc_optional; eauto|]. intros w [a|] [_ H]; auto.
  - intros A n c IH W. eapply enc_ok_sub; [exact (IH W)|]. intros w i [H _]; auto.
  - intros A n c IH (W & Ea & N0). specialize (IH W). rewrite Ea in *.
    destruct (enc_ok_again IH) as (P & H1 & H2 & H3).
    exists (fun st => P (ln_inner st) /\ ln_remaining st = n /\ ln_expected st = n),
           (fun st => P (ln_inner st) /\ ln_remaining st = 0%N /\ ln_expected st = n).
    split; [|split; [cbn; auto|discriminate]]. apply elength_encodes; auto.
  - intros A n c IH [W L]. destruct (IH W) as (P & Q & H & K & HA).
    exists (fun st => P (mx_inner st) /\ mx_consumed st = 0%N /\ mx_max st = n),
           (fun st => Q (mx_inner st) /\ mx_consumed st = 0%N /\ mx_max st = n).
    split; [apply emax_encodes; auto|split; [cbn; auto|]].
    intros Ea. destruct (HA Ea). split; [apply emax_rests; auto|]. intros s (R0 & R1 & R2); auto.
  - intros A c IH [W _]. exact (IH W).
  - intros A c IH W. eapply enc_ok_sub; [exact (IH W)|]. intros w i [H _]; auto.
  - intros A c IH [W Ea]. specialize (IH W). rewrite Ea in *.
    destruct (enc_ok_again IH) as (P & H1 & H2 & H3).
    eapply enc_ok_1; [apply pre_encodes; eauto|split; cbn; [auto|reflexivity]|apply pre_rests].
  - intros A c IH (W & M & N0 & _ & Ea & _). specialize (IH W). rewrite Ea in *.
    eapply enc_ok_sub; [apply cenc_repeat; [eauto|]|].
    + exact (nonempty_wire c N0).
    + auto.
  - intros A n c IH (W & M & N0 & _ & Ea). specialize (IH W). rewrite Ea in *.
    eapply enc_ok_sub; [apply cenc_repeat; [eauto|]|].
    + exact (nonempty_wire c N0).
    + intros w i (Ft & Sq & _). split; auto.
  - intros A k size c IH W. specialize (IH W).
    eapply cenc_map; [apply (cenc_pair (unum_enc_ok k) IH)|].
    intros w t (Ft & w0 & w1 & -> & Wc & Sz & Nb). split; auto. exists w0, w1; cbn.
    rewrite <- Sz. auto.
  - intros A k c IH (W & M & N0 & _ & Ea). specialize (IH W). rewrite Ea in *.
    eapply cenc_map; [apply (cenc_pair (unum_enc_ok k) (cenc_repeat IH (nonempty_wire c N0)))|].
    intros w t (Ft & w0 & w1 & -> & Sq & Nb). split; auto. exists w0, w1; cbn. split; auto. split; auto.
    split; auto. unfold fits in Ft. rewrite len_app in Ft. lia.
  - intros A k c IH (W & Ea & _). specialize (IH W). rewrite Ea in *.
    eapply cenc_map; [apply (cenc_pair (unum_enc_ok k) (cenc_optional IH))|].
    intros w t (Ft & w0 & w1 & -> & X). split; auto. exists w0, w1; cbn.
    destruct t; destruct X; auto.
  - intros A B c IH c' IH' (W & W' & M). split; [apply ep_snoc_ok, ep_one_ok|].
    eapply enc_ok_sub; [apply (cenc_pair (IH W) (IH' W'))|]. auto.
  - intros A B p IH c IH' (W & W' & M). destruct (IH W) as [OK (P0 & Q0 & H0 & K0 & A0)].
    destruct (IH' W') as (P1 & Q1 & H1 & K1 & A1).
    split; [now apply ep_snoc_ok|].
    exists (fun s => P0 (fst s) /\ P1 (snd s)), (fun s => Q0 (fst s) /\ Q1 (snd s)).
    split; [|split; [auto|]].
    + eapply encodes_sub; [apply snoc_encodes; eauto|..]; auto.
    + intros E. apply andb_prop in E. destruct E as [Ea Eb]. destruct A0, A1; auto.
      split; [apply snoc_rests; auto|]. intros s [T0 T1]. auto.
Qed.
