(** * When [decode_exact] returns: proofs. *)
From Coq Require Import Lia ZifyBool ZifyNat ZifyN.
From Verif Require Export Exact LiveProofs Honest.
Set Implicit Arguments.

Definition zero {S I} (D : Decoder S I) (s : S) : Prop := dec_req D s = Ok (Finite 0).
Record awake_step (p t k : bool) {S I} (D : Decoder S I) (L : S -> Prop) : Prop := {
  aw_decode : forall s fuel buf e s' n, L s -> dec_decode D fuel s buf e = (s', Ok n) -> L s';
  aw_finish : forall s s' i, L s -> dec_finish D s = (s', Ok i) -> L s';
  aw_zero : forall s fuel e s' n, L s -> zero D s -> dec_decode D fuel s [] e = (s', Ok n) -> dec_idle D s' = true;
  aw_eos : forall s fuel e s' n, L s -> is_reached e = true -> dec_decode D fuel s [] e = (s', Ok n) -> dec_idle D s' = true;
  aw_prompt : p = true -> forall s fuel buf e s' n, L s -> is_reached e = true ->
    dec_decode D fuel s buf e = (s', Ok n) -> dec_idle D s' = true;
  aw_on : t = true -> forall s fuel buf e s' n, L s ->
    dec_decode D fuel s buf e = (s', Ok n) -> dec_idle D s' = false -> ~ zero D s';
  aw_first : k = true -> forall s s' i, L s -> dec_finish D s = (s', Ok i) -> ~ zero D s'
}.
Arguments aw_decode {p t k S I D L} _ {s fuel buf e s' n} _ _.
Arguments aw_finish {p t k S I D L} _ {s s' i} _ _.
Arguments aw_zero {p t k S I D L} _ {s fuel e s' n} _ _ _.
Arguments aw_eos {p t k S I D L} _ {s fuel e s' n} _ _ _.
Arguments aw_prompt {p t k S I D L} _ _ {s fuel buf e s' n} _ _ _.
Arguments aw_on {p t k S I D L} _ _ {s fuel buf e s' n} _ _ _ _.
Arguments aw_first {p t k S I D L} _ _ {s s' i} _ _ _.
Definition awake (p t k : bool) {S I} (D : Decoder S I) (s : S) : Prop :=
  exists L, awake_step p t k D L /\ L s /\ (k = true -> ~ zero D s).

(** ** Decoders that pass everything on *)
Lemma awake_via : forall p t k S I J (D : Decoder S I) (D' : Decoder S J) s,
  (forall fuel s buf e s' n, dec_decode D' fuel s buf e = (s', Ok n) -> dec_decode D fuel s buf e = (s', Ok n)) ->
  (forall s s' j, dec_finish D' s = (s', Ok j) -> exists i, dec_finish D s = (s', Ok i)) ->
  (forall s, zero D' s <-> zero D s) -> (forall s, dec_idle D' s = dec_idle D s) ->
  awake p t k D s -> awake p t k D' s.
Proof.
  intros p t k S I J D D' s HD HF HZ HI (L & H & h & h0). exists L.
  split; [|split; [auto|now rewrite HZ]]. constructor.
  - intros ? ? ? ? ? ? l E. exact (aw_decode H l (HD _ _ _ _ _ _ E)).
  - intros ? ? ? l E. destruct (HF _ _ _ E) as (ii & E'). exact (aw_finish H l E').
  - intros ? ? ? ? ? l z E. rewrite HI. rewrite HZ in z. exact (aw_zero H l z (HD _ _ _ _ _ _ E)).
  - intros ? ? ? ? ? l z E. rewrite HI. exact (aw_eos H l z (HD _ _ _ _ _ _ E)).
  - intros P ? ? ? ? ? ? l z E. rewrite HI. exact (aw_prompt H P l z (HD _ _ _ _ _ _ E)).
  - intros P ? ? ? ? ? ? l E. rewrite HI, HZ. exact (aw_on H P l (HD _ _ _ _ _ _ E)).
  - intros P ? ? ? l E. rewrite HZ. destruct (HF _ _ _ E) as (ii & E'). exact (aw_first H P l E').
Qed.
Lemma awake_map : forall p t k S I T (D : Decoder S I) (f : I -> T) s, awake p t k D s -> awake p t k (map_decoder D f) s.
Proof.
  intros p t k S I T D f s. apply awake_via; cbn; auto; [|reflexivity].
  intros s0 s' j. destruct (dec_finish D s0) as [s1 [i| | |]]; cbn; try discriminate. intros [= <- _]. eauto.
Qed.
Lemma awake_try_map : forall p t k S I T (D : Decoder S I) (f : I -> T + ErrorKind) s,
  awake p t k D s -> awake p t k (try_map_decoder D f) s.
Proof.
  intros p t k S I T D f s. apply awake_via; cbn; auto; [|reflexivity].
  intros s0 s' j. destruct (dec_finish D s0) as [s1 [i| | |]]; cbn; try discriminate. intros [= <- _]. eauto.
Qed.
Lemma awake_map_err : forall p t k S I (D : Decoder S I) f s, awake p t k D s -> awake p t k (map_err_decoder D f) s.
Proof.
  intros p t k S I D f s. apply awake_via; cbn; auto; [| |reflexivity].
  - intros fuel s0 buf e s' n. destruct (dec_decode D fuel s0 buf e) as [s1 [i| | |]]; cbn; try discriminate. auto.
  - intros s0 s' j. destruct (dec_finish D s0) as [s1 [i| | |]]; cbn; try discriminate. intros [= <- _]. eauto.
Qed.
Lemma awake_utf8 : forall p t k S (D : Decoder S (list byte)) s, awake p t k D s -> awake p t k (utf8_decoder D) s.
Proof.
  intros p t k S D s. apply awake_via; cbn; auto; [|reflexivity].
  intros s0 s' j. destruct (dec_finish D s0) as [s1 [i| | |]]; cbn; try discriminate. intros [= <- _]. eauto.
Qed.

(** ** Primitives *)
Lemma sub_nonzero : forall a b, (b =? a) = false ->
  match (if b <=? a then Some (a - b) else None) with
  | Some n => Ok (Finite (N.of_nat n)) | None => Panic end <> Ok (Finite 0).
Proof.
  intros a b Q. destruct (Nat.leb_spec b a); [|intros Z; discriminate Z]. intros [= Z]. lia.
Qed.
Lemma sub_nonzero' : forall a b, (a - b =? 0) = false ->
  match (if b <=? a then Some (a - b) else None) with
  | Some n => Ok (Finite (N.of_nat n)) | None => Panic end <> Ok (Finite 0).
Proof. intros a b Q. apply sub_nonzero. lia. Qed.
Lemma awake_copy : forall n, awake true true (negb (n =? 0)) (copy_decoder vec_box) (copy_dec_new (repeat x00 n)).
Proof.
  intros n. exists (fun st => length (cd_bytes st) = n). split; [|split; cbn]; [|apply repeat_length|].
  2:{ unfold zero, usize_sub. cbn. rewrite repeat_length. intros N [= E]. lia. }
  constructor; unfold zero; cbn.
  - intros [b o] fuel buf e s' m L. cbn in L. unfold copy_decode, usize_sub; cbn.
    destruct (o <=? length b); [|discriminate].
    destruct (_ && _); [discriminate|]. intros [= <- _]. cbn. unfold overwrite.
    rewrite !app_length, skipn_length, !firstn_length. lia.
  - intros [b o] s' i L. unfold copy_finish; cbn. destruct (_ =? _); [|discriminate]. now intros [= <- _].
  - intros [b o] fuel e s' m L. cbn in L. unfold copy_decode, usize_sub; cbn.
    destruct (Nat.leb_spec o (length b)); [|discriminate]. intros [= Z].
    destruct (_ && _); [discriminate|]. intros [= <- _]. cbn.
    unfold overwrite. rewrite !app_length, skipn_length, !firstn_length. cbn. lia.
  - intros [b o] fuel e s' m L R. cbn in L. unfold copy_decode, usize_sub; cbn.
    destruct (Nat.leb_spec o (length b)); [|discriminate]. rewrite R, andb_true_r.
    destruct (negb _) eqn:Q; [discriminate|]. intros [= <- _]. cbn. now apply negb_false_iff in Q.
  - intros _ [b o] fuel buf e s' m L R. cbn in L. unfold copy_decode, usize_sub; cbn.
    destruct (Nat.leb_spec o (length b)); [|discriminate]. rewrite R, andb_true_r.
    destruct (negb _) eqn:Q; [discriminate|]. intros [= <- _]. cbn. now apply negb_false_iff in Q.
  - intros _ [b o] fuel buf e s' m L. cbn in L. unfold copy_decode, usize_sub; cbn.
    destruct (Nat.leb_spec o (length b)); [|discriminate].
    destruct (_ && _); [discriminate|]. intros _. apply sub_nonzero.
  - intros N st s1 i L. unfold copy_finish. destruct (cd_off st =? _); [|intros Z; discriminate Z]. intros [= <- _]. cbn.
    unfold usize_sub; cbn. rewrite Nat.sub_0_r. intros E. injection E as E. lia.
Qed.
Lemma awake_num : forall T (item : list byte -> T) n,
  awake true true (negb (n =? 0)) (num_decoder item) (num_dec_new n).
Proof.
  intros T item n. eapply awake_via with (D := copy_decoder vec_box); [now auto|..|now auto|apply awake_copy]; cbn; [|reflexivity].
  intros s0 s' t E. destruct (copy_finish vec_box s0) as [s1 [i| | |]]; cbn in E; try discriminate.
  injection E as <- <-. eauto.
Qed.
Lemma awake_bytes : forall n, awake true true false (bytes_decoder vec_box) (bytes_dec_new (repeat x00 n)).
Proof.
  intros n. exists (fun _ => True). split; [|split; [exact Logic.I|discriminate]].
  constructor; unfold zero; auto; [intros [[b|] o]|intros [[b|] o]|intros _ [[b|] o]|intros _ [[b|] o]|discriminate];
    cbn; unfold bytes_decode, usize_sub; cbn; try discriminate.
  - intros fuel e s' m _. destruct (Nat.leb_spec o (length b)); [|discriminate]. intros [= Z].
    destruct (_ && _); [discriminate|]. intros [= <- _]. cbn. unfold bytes_dec_exact. cbn.
    unfold overwrite. rewrite !app_length, skipn_length, !firstn_length. cbn. lia.
  - intros fuel e s' m _ R. destruct (Nat.leb_spec o (length b)); [|discriminate]. rewrite R, andb_true_r.
    destruct (negb _) eqn:Q; [discriminate|]. intros [= <- _]. now apply negb_false_iff in Q.
  - intros fuel buf e s' m _ R. destruct (Nat.leb_spec o (length b)); [|discriminate]. rewrite R, andb_true_r.
    destruct (negb _) eqn:Q; [discriminate|]. intros [= <- _]. now apply negb_false_iff in Q.
  - intros fuel buf e s' m _. destruct (Nat.leb_spec o (length b)); [|discriminate].
    destruct (_ && _); [discriminate|]. intros [= <- _]. cbn. unfold bytes_dec_exact. apply sub_nonzero'.
Qed.
Lemma awake_rem : forall s, rm_eos s = false -> awake true true true rem_decoder s.
Proof.
  intros s E0. exists (fun _ => True). unfold zero. cbn. split; [|split; auto; rewrite E0; discriminate].
  constructor; auto; unfold zero; cbn; unfold rem_decode.
  - intros [b [|]] fuel e s' m _; cbn; [|discriminate]. now intros _ [= <- _].
  - intros [b [|]] fuel e s' m _ R; cbn; [now intros [= <- _]|]. rewrite R.
    branches; intros [= <- _]; auto.
  - intros _ [b [|]] fuel buf e s' m _ R; cbn; [now intros [= <- _]|]. rewrite R.
    branches; intros [= <- _]; auto.
  - intros _ [b [|]] fuel buf e s' m _; cbn; [now intros [= <- _]|]. 
    branches; intros [= <- _]; cbn; intros Q; rewrite ?Q; intros Z; congruence.
  - intros _ [b [|]] s' i _; unfold rem_finish; cbn; [|discriminate]. intros [= <- _]. discriminate.
Qed.
Lemma awake_null : awake true true false null_decoder tt.
Proof.
  exists (fun _ => True). split; [|split; auto; discriminate]. constructor; unfold zero; cbn; auto; discriminate.
Qed.
Lemma awake_pad : forall b, awake true true true pad_decoder (pad_dec_new b).
Proof.
  intros b. exists (fun _ => True). unfold zero. cbn. split; [|split; auto; discriminate].
  constructor; auto; unfold zero; cbn; unfold pad_decode.
  - intros [x [|]] fuel e s' m _; cbn; [|discriminate]. now intros _ [= <- _].
  - intros [x [|]] fuel e s' m _ R; cbn; [now intros [= <- _]|]. rewrite R.
    branches; intros [= <- _]; auto.
  - intros _ [x [|]] fuel buf e s' m _ R; cbn; [now intros [= <- _]|]. rewrite R.
    branches; intros [= <- _]; auto.
  - intros _ [x [|]] fuel buf e s' m _; cbn; [now intros [= <- _]|].
    branches; intros [= <- _]; cbn; intros Q; rewrite ?Q; intros Z; congruence.
  - intros _ [x [|]] s' i _; cbn; [|discriminate]. intros [= <- _]. discriminate.
Qed.
Lemma awake_mono : forall I (f : MonoDecode I), awake true true true (mono_decoder f) mono_dec_new.
Proof.
  intros I f. exists (fun _ => True). unfold zero. cbn. split; [|split; auto; discriminate].
  constructor; auto; unfold zero; cbn; unfold mono_decode.
  - intros [[i|] b] fuel e s' m _; cbn; [|discriminate]. intros _.
    destruct (is_reached e); [destruct (f _) as [[j|k] r]|]; intros [= <- _]; auto.
  - intros [o b] fuel e s' m _ R; cbn. rewrite R. destruct (f _) as [[j|k] r]; intros [= <- _]; auto.
  - intros _ [o b] fuel buf e s' m _ R; cbn. rewrite R. destruct (f _) as [[j|k] r]; intros [= <- _]; auto.
  - intros _ [o b] fuel buf e s' m _; cbn.
    destruct (is_reached e); [destruct (f _) as [[j|k] r]|]; intros [= <- _]; cbn; try discriminate.
    destruct o; discriminate.
  - intros _ [[i|] b] s' x _; cbn; [|discriminate]. intros [= <- _]. discriminate.
Qed.

(** ** Combinators *)
Ltac nope := let H := fresh in intros H; discriminate H.
Lemma try_awake : forall p t k S I (D : Decoder S I) L fuel s off buf e,
  awake_step p t k D L -> L s ->
  match try_decode D fuel s off buf e with
  | TGo s' _ => L s'
  | TRet s' (Ok _) => L s' /\ dec_idle D s' = false /\ (t = true -> ~ zero D s') /\ (p = true -> is_reached e = false)
  | _ => True
  end.
Proof.
  intros p t k S I D L fuel s off buf e H h. unfold try_decode. destruct (dec_idle D s) eqn:id; auto.
  destruct (slice_from off buf) as [b|]; auto.
  destruct (dec_decode D fuel s b e) as [s' [n| | |]] eqn:E; auto.
  pose proof (aw_decode H h E). destruct (dec_idle D s') eqn:id'; auto.
  repeat split; auto.
  - intros T. exact (aw_on H T h E id').
  - intros P. destruct (is_reached e) eqn:R; auto. pose proof (aw_prompt H P h R E). congruence.
Qed.
Arguments try_awake {p t k S I D L} fuel {s} off buf e _ _.
Lemma try_awake_nil : forall p t k S I (D : Decoder S I) L fuel s off e,
  awake_step p t k D L -> L s -> zero D s \/ is_reached e = true ->
  match try_decode D fuel s off [] e with TRet s' (Ok _) => False | _ => True end.
Proof.
  intros p t k S I D L fuel s off e H h Z. unfold try_decode. destruct (dec_idle D s) eqn:id; auto.
  destruct off as [|off]; cbn; auto.
  destruct (dec_decode D fuel s [] e) as [s' [n| | |]] eqn:E; auto.
  assert (dec_idle D s' = true) as -> by (destruct Z as [Z|Z]; [exact (aw_zero H h Z E)|exact (aw_eos H h Z E)]).
  exact Logic.I.
Qed.

Arguments try_awake_nil {p t k S I D L} fuel {s} off e _ _ _.
Lemma reached_0 : forall e, is_reached e = true -> e = Finite 0.
Proof. intros [n| |]; cbn; try nope. intros E. f_equal. lia. Qed.
Lemma awake_length : forall p t k S I (D : Decoder S I) s n, honest D ->
  awake p t k D s -> awake false p (negb (n =? 0)%N) (length_decoder D) (length_new s n).
Proof.
  intros p t k S I D s n HD (L & H & h & _).
  exists (fun st => L (ln_inner st) /\ ln_expected st = n).
  split; [|split; [cbn; auto|]].
  2:{ unfold zero; cbn. intros N [= E]. lia. }
  assert (GO : forall st fuel buf e st' m, dec_decode (length_decoder D) fuel st buf e = (st', Ok m) ->
    exists s', dec_decode D fuel (ln_inner st) (firstn (N.to_nat (N.min (len buf) (ln_remaining st))) buf)
                 (Finite (ln_remaining st - N.min (len buf) (ln_remaining st))) = (s', Ok m) /\
      (N.of_nat m <= ln_remaining st)%N /\
      st' = mkLength s' (ln_expected st) (ln_remaining st - N.of_nat m) /\
      (is_reached e = true -> (ln_remaining st <= len buf + len buf)%N)).
  { intros [s0 ex rm] fuel buf e st' m. cbn. unfold length_decode. cbn -[N.min N.sub N.add].
    unfold u64_sub. set (limit := N.min (len buf) rm).
    destruct (dec_decode D fuel s0 (firstn (N.to_nat limit) buf) _) as [s1 r] eqn:X.
    assert (G : match r with
         | Ok size => match (if (N.of_nat size <=? rm)%N then Some (rm - N.of_nat size)%N else None) with
              | Some rem => (mkLength s1 ex rem, Ok size)
              | None => (mkLength s1 ex rm, Panic) end
         | r' => (mkLength s1 ex rm, r') end = (st', Ok m) ->
       r = Ok m /\ (N.of_nat m <= rm)%N /\ st' = mkLength s1 ex (rm - N.of_nat m)).
    { destruct r as [x| | |]; try nope. destruct (N.leb_spec (N.of_nat x) rm); [|nope].
      intros [= <- <-]. auto. }
    destruct (bc_to_u64 (remaining_bytes e)) as [q|] eqn:Q.
    - unfold u64_add. destruct (_ <=? u64_max)%N; [|nope].
      destruct (N.leb_spec (rm - limit) (q + len buf)); [|nope]. intros E. destruct (G E) as (-> & G1 & G2).
      exists s1. split; [first [exact X|reflexivity]|]. repeat split; auto. intros R. apply reached_0 in R. subst e. injection Q as <-. subst limit. lia.
    - intros E. destruct (G E) as (-> & G1 & G2). exists s1. split; [first [exact X|reflexivity]|]. repeat split; auto. intros R. apply reached_0 in R.
      subst e. discriminate. }
  constructor.
  - intros st fuel buf e st' m [l ex] E. destruct (GO _ _ _ _ _ _ E) as (s' & X & _ & -> & _). cbn. split; auto.
    exact (aw_decode H l X).
  - intros [s0 ex rm] s' i [l X]. cbn in *. destruct (_ =? _)%N; [|nope].
    destruct (dec_finish D s0) as [s1 r] eqn:E. intros [= <- ->]. cbn. split; auto. exact (aw_finish H l E).
  - intros [s0 ex rm] fuel e st' m [l _] Z E. unfold zero in Z. cbn in l, Z. injection Z as ->.
    destruct (GO _ _ _ _ _ _ E) as (s' & X & _ & -> & _). cbn in X |- *. exact (aw_eos H l (eq_refl : is_reached (Finite 0) = true) X).
  - intros [s0 ex rm] fuel e st' m [l _] R E. cbn in l.
    destruct (GO _ _ _ _ _ _ E) as (s' & X & _ & -> & Y). cbn in X, Y |- *. specialize (Y R). cbn in Y.
    assert (rm = 0%N) as -> by lia. exact (aw_eos H l (eq_refl : is_reached (Finite 0) = true) X).
  - discriminate.
  - intros P [s0 ex rm] fuel buf e st' m [l _] E id Z. cbn in l.
    destruct (GO _ _ _ _ _ _ E) as (s' & X & M & -> & _). unfold zero in Z. cbn -[N.sub N.min] in X, M, Z, id. injection Z as Z.
    pose proof (HD _ _ _ _ _ _ X) as HL. rewrite firstn_length in HL.
    assert (rm - N.min (len buf) rm = 0)%N as Y by (unfold len in *; lia). rewrite Y in X.
    pose proof (aw_prompt H P l (eq_refl : is_reached (Finite 0) = true) X). congruence.
  - intros N [s0 ex rm] s' i [l X]. cbn in X. cbn. destruct (rm =? 0)%N; [|nope].
    destruct (dec_finish D s0) as [s1 r] eqn:E. intros [= <- ->] Z. unfold zero in Z. cbn in Z. injection Z as Z. lia.
Qed.
Lemma awake_max : forall p t k S I (D : Decoder S I) s n,
  awake p t k D s -> awake p t k (max_decoder D) (max_new s n).
Proof.
  intros p t k S I D s n (L & H & h & h0). exists (fun st => L (mx_inner st)). split; [|split; [auto|exact h0]].
  assert (GO : forall st fuel buf e st' m, dec_decode (max_decoder D) fuel st buf e = (st', Ok m) ->
    exists s', dec_decode D fuel (mx_inner st) buf e = (s', Ok m) /\ mx_inner st' = s').
  { intros [s0 c mx] fuel buf e st' m. cbn. unfold max_decode. destruct (max_check _ buf e); try nope. cbn.
    destruct (dec_decode D fuel s0 buf e) as [s1 [x| | |]]; try nope. destruct (u64_add _ _); [|nope].
    intros [= <- <-]. eauto. }
  constructor.
  - intros st fuel buf e st' m l E. destruct (GO _ _ _ _ _ _ E) as (s' & X & ->). exact (aw_decode H l X).
  - intros [s0 c mx] s' i l. cbn in *. destruct (dec_finish D s0) as [s1 r] eqn:E. intros [= <- ->]. exact (aw_finish H l E).
  - intros st fuel e st' m l Z E. destruct (GO _ _ _ _ _ _ E) as (s' & X & Y). cbn. rewrite Y. exact (aw_zero H l Z X).
  - intros st fuel e st' m l Z E. destruct (GO _ _ _ _ _ _ E) as (s' & X & Y). cbn. rewrite Y. exact (aw_eos H l Z X).
  - intros P st fuel buf e st' m l Z E. destruct (GO _ _ _ _ _ _ E) as (s' & X & Y). cbn. rewrite Y. exact (aw_prompt H P l Z X).
  - intros P st fuel buf e st' m l E. destruct (GO _ _ _ _ _ _ E) as (s' & X & Y). unfold zero; cbn. rewrite Y. exact (aw_on H P l X).
  - intros P [s0 c mx] s' i l. cbn in *. destruct (dec_finish D s0) as [s1 r] eqn:E. intros [= <- ->]. exact (aw_first H P l E).
Qed.
Lemma awake_omit : forall p t k S I (D : Decoder S I) s b,
  awake p t k D s -> awake p t (negb b && k) (omit_decoder D) (mkOmit s b).
Proof.
  intros p t k S I D s b (L & H & h & h0). exists (fun st => L (om_inner st) /\ om_omit st = b).
  split; [|split; [auto|]].
  2:{ unfold zero; cbn. destruct b; [discriminate|exact h0]. }
  destruct b.
  { constructor; try discriminate.
    - intros [s0 b] fuel buf e s' m [l Y]. cbn in *. subst b. intros [= <- _]. auto.
    - intros [s0 b] s' m [l Y]. cbn in *. subst b. intros [= <- _]. auto.
    - intros [s0 b] fuel e s' m [l Y] _. cbn in *. subst b. intros [= <- _]. auto.
    - intros [s0 b] fuel e s' m [l Y] _. cbn in *. subst b. intros [= <- _]. auto.
    - intros _ [s0 b] fuel buf e s' m [l Y] _. cbn in *. subst b. intros [= <- _]. auto.
    - intros _ [s0 b] fuel buf e s' m [l Y]. cbn in *. subst b. intros [= <- _]. discriminate. }
  constructor.
  - intros [s0 b] fuel buf e s' m [l Y]. cbn in *. subst b.
    destruct (dec_decode D fuel s0 buf e) as [s1 r] eqn:E. intros [= <- ->]. cbn. split; auto. exact (aw_decode H l E).
  - intros [s0 b] s' m [l Y]. cbn in *. subst b.
    destruct (dec_finish D s0) as [s1 [i| | |]] eqn:E; cbn; try nope. intros [= <- _]. cbn. split; auto. exact (aw_finish H l E).
  - intros [s0 b] fuel e s' m [l Y] Z. unfold zero in Z. cbn in *. subst b.
    destruct (dec_decode D fuel s0 [] e) as [s1 r] eqn:E. intros [= <- ->]. cbn. exact (aw_zero H l Z E).
  - intros [s0 b] fuel e s' m [l Y] Z. cbn in *. subst b.
    destruct (dec_decode D fuel s0 [] e) as [s1 r] eqn:E. intros [= <- ->]. cbn. exact (aw_eos H l Z E).
  - intros P [s0 b] fuel buf e s' m [l Y] Z. cbn in *. subst b.
    destruct (dec_decode D fuel s0 buf e) as [s1 r] eqn:E. intros [= <- ->]. cbn. exact (aw_prompt H P l Z E).
  - intros P [s0 b] fuel buf e s' m [l Y]. unfold zero. cbn in *. subst b.
    destruct (dec_decode D fuel s0 buf e) as [s1 r] eqn:E. intros [= <- ->]. cbn. exact (aw_on H P l E).
  - intros P [s0 b] s' m [l Y]. unfold zero. cbn in *. subst b.
    destruct (dec_finish D s0) as [s1 [i| | |]] eqn:E; cbn; try nope. intros [= <- _]. cbn. exact (aw_first H P l E).
Qed.
Lemma awake_peek : forall p t k S I (D : Decoder S I) s,
  awake p t k D s -> awake p t k (peek_decoder D) (peek_new s).
Proof.
  intros p t k S I D s (L & H & h & h0).
  exists (fun st => L (pk_inner st) /\ (k = true -> pk_item st <> None -> ~ zero D (pk_inner st))).
  split; [|split; [cbn; split; auto; congruence|exact h0]].
  assert (GO : forall s0 fuel buf e st' m, L s0 -> peek_decode D fuel (mkPeek s0 None) buf e = (st', Ok m) ->
    exists s', dec_decode D fuel s0 buf e = (s', Ok m) /\
      ((dec_idle D s' = false /\ st' = mkPeek s' None) \/
       exists s'' i, dec_idle D s' = true /\ dec_finish D s' = (s'', Ok i) /\ st' = mkPeek s'' (Some i))).
  { intros s0 fuel buf e st' m l. unfold peek_decode; cbn.
    destruct (dec_decode D fuel s0 buf e) as [s1 [x| | |]] eqn:E; try nope.
    destruct (dec_idle D s1) eqn:id.
    - destruct (dec_finish D s1) as [s2 [i| | |]] eqn:Fi; try nope. intros [= <- <-]. exists s1; eauto 10.
    - intros [= <- <-]. eauto. }
  constructor.
  - intros [s0 [i|]] fuel buf e s' m [l Y].
    { cbn. intros [= <- <-]. cbn. auto. }
    cbn in l, Y |- *. intros E. destruct (GO _ _ _ _ _ _ l E) as (s1 & X & [(_ & ->)|(s2 & i & id & Fi & ->)]); cbn.
    + split; [exact (aw_decode H l X)|congruence].
    + pose proof (aw_decode H l X) as l1. split; [exact (aw_finish H l1 Fi)|]. intros K _. exact (aw_first H K l1 Fi).
  - intros [s0 [i|]] s' m [l Y]; cbn in *; [|nope]. intros [= <- _]. cbn. split; auto.
  - intros [s0 [i|]] fuel e s' m [l Y] Z.
    { cbn. intros [= <- <-]. reflexivity. }
    unfold zero in Z. cbn in l, Z |- *. intros E.
    destruct (GO _ _ _ _ _ _ l E) as (s1 & X & [(id & _)|(s2 & i & id & Fi & ->)]); cbn; auto.
    rewrite (aw_zero H l Z X) in id. discriminate.
  - intros [s0 [i|]] fuel e s' m [l Y] Z.
    { cbn. intros [= <- <-]. reflexivity. }
    cbn in l |- *. intros E.
    destruct (GO _ _ _ _ _ _ l E) as (s1 & X & [(id & _)|(s2 & i & id & Fi & ->)]); cbn; auto.
    rewrite (aw_eos H l Z X) in id. discriminate.
  - intros P [s0 [i|]] fuel buf e s' m [l Y] Z.
    { cbn. intros [= <- <-]. reflexivity. }
    cbn in l |- *. intros E.
    destruct (GO _ _ _ _ _ _ l E) as (s1 & X & [(id & _)|(s2 & i & id & Fi & ->)]); cbn; auto.
    rewrite (aw_prompt H P l Z X) in id. discriminate.
  - intros P [s0 [i|]] fuel buf e s' m [l Y].
    { cbn. intros [= <- <-]. discriminate. }
    cbn in l |- *. intros E.
    destruct (GO _ _ _ _ _ _ l E) as (s1 & X & [(id & ->)|(s2 & i & id & Fi & ->)]); cbn; [|nope].
    intros _. exact (aw_on H P l X id).
  - intros P [s0 [i|]] s' m [l Y]; cbn in *; [|nope]. intros [= <- _]. apply Y; auto. discriminate.
Qed.
Lemma add_zero : forall a b, add_for_decoding a b = Ok (Finite 0) <-> a = Finite 0 /\ b = Finite 0.
Proof.
  intros [x| |] [y| |]; cbn; unfold u64_add; split; try nope; try (intros [? ?]; discriminate).
  - destruct (_ <=? _)%N; [|nope]. cbn. intros [= E]. split; f_equal; lia.
  - intros [[= ->] [= ->]]. reflexivity.
  - destruct (N.eqb_spec x 0); [discriminate|]. congruence.
  - destruct (N.eqb_spec y 0); [discriminate|]. congruence.
Qed.
Lemma pair_zero : forall S0 S1 I0 I1 (D0 : Decoder S0 I0) (D1 : Decoder S1 I1) s0 s1,
  zero (tuple2_decoder D0 D1) (s0, s1) <-> zero D0 s0 /\ zero D1 s1.
Proof.
  intros. unfold zero. cbn -[add_for_decoding].
  destruct (dec_req D0 s0) as [q0| | |]; cbn -[add_for_decoding]; try (split; [discriminate|intros [? _]; discriminate]).
  destruct (add_for_decoding (Finite 0) q0) as [q|x| |] eqn:A; cbn -[add_for_decoding]; [|split; intros Z; [discriminate Z|destruct Z as [Z _]; injection Z as ->; discriminate A]..].
  destruct (dec_req D1 s1) as [q1| | |]; cbn -[add_for_decoding]; try (split; [discriminate|intros [_ ?]; discriminate]).
  rewrite add_zero. split.
  - intros [-> ->]. apply add_zero in A. destruct A as [_ ->]. auto.
  - intros [[= ->] [= ->]]. injection A as <-. auto.
Qed.
Lemma awake_pair : forall p0 p1 t0 t1 k0 k1 S0 S1 I0 I1 (D0 : Decoder S0 I0) (D1 : Decoder S1 I1) s0 s1,
  awake p0 t0 k0 D0 s0 -> awake p1 t1 k1 D1 s1 ->
  awake (p0 && p1) (t0 && t1) (k0 || k1) (tuple2_decoder D0 D1) (s0, s1).
Proof.
  intros p0 p1 t0 t1 k0 k1 S0 S1 I0 I1 D0 D1 s0 s1 (L0 & H0 & h0 & z0) (L1 & H1 & h1 & z1).
  exists (fun st => L0 (fst st) /\ L1 (snd st)). split; [|split; [auto|]].
  2:{ rewrite pair_zero, orb_true_iff. tauto. }
  clear s0 s1 h0 h1 z0 z1.
  assert (ID : forall s0 s1, dec_idle (tuple2_decoder D0 D1) (s0, s1) = dec_idle D0 s0 && dec_idle D1 s1) by reflexivity.
  assert (GO : forall s0 s1 fuel buf e s' n,
    dec_decode (tuple2_decoder D0 D1) fuel (s0, s1) buf e = (s', Ok n) ->
    (exists t0, try_decode D0 fuel s0 0 buf e = TRet t0 (Ok n) /\ s' = (t0, s1)) \/
    (exists t0 o t1, try_decode D0 fuel s0 0 buf e = TGo t0 o /\ s' = (t0, t1) /\
       (try_decode D1 fuel s1 o buf e = TGo t1 n \/ try_decode D1 fuel s1 o buf e = TRet t1 (Ok n)))).
  { intros s0 s1 fuel buf e s' n.
    unfold tuple2_decoder, tuple_of_dec_parts, dec_decode, dec_parts2, dp_snoc, dp_decode, dp_one. cbn [fst snd].
    destruct (try_decode D0 fuel s0 0 buf e) as [u0 o0|u0 r0]; [|intros [= <- ->]; eauto].
    destruct (try_decode D1 fuel s1 o0 buf e) as [u1 o1|u1 r1] eqn:E1.
    - intros [= <- <-]. right. exists u0, o0, u1. auto.
    - intros [= <- ->]. right. exists u0, o0, u1. auto. }
  constructor.
  - intros [s0 s1] fuel buf e s' n [l0 l1] E. cbn in l0, l1. pose proof (try_awake fuel 0 buf e H0 l0) as A0.
    destruct (GO _ _ _ _ _ _ _ E) as [(u0 & X & ->)|(u0 & o & u1 & X & -> & Y)]; rewrite X in A0; cbn; [tauto|].
    pose proof (try_awake fuel o buf e H1 l1) as A1. destruct Y as [Y|Y]; rewrite Y in A1; tauto.
  - intros [s0 s1] s' i [l0 l1]. cbn in l0, l1 |- *.
    destruct (dec_finish D0 s0) as [u0 [j0| | |]] eqn:E0; cbn; try nope.
    destruct (dec_finish D1 s1) as [u1 [j1| | |]] eqn:E1; cbn; intros [= <- <-]. cbn. split.
    + exact (aw_finish H0 l0 E0).
    + exact (aw_finish H1 l1 E1).
  - intros [s0 s1] fuel e s' n [l0 l1] Z E. rewrite pair_zero in Z. destruct Z as [Z0 Z1]. cbn in l0, l1.
    pose proof (try_awake_nil fuel 0 e H0 l0 (or_introl Z0)) as A0.
    destruct (GO _ _ _ _ _ _ _ E) as [(u0 & X & ->)|(u0 & o & u1 & X & -> & Y)]; rewrite X in A0; [tauto|].
    pose proof (try_awake_nil fuel o e H1 l1 (or_introl Z1)) as A1. rewrite ID, (try_decode_go _ _ _ _ _ _ X).
    destruct Y as [Y|Y]; rewrite Y in A1; [|tauto]. now rewrite (try_decode_go _ _ _ _ _ _ Y).
  - intros [s0 s1] fuel e s' n [l0 l1] Z E. cbn in l0, l1.
    pose proof (try_awake_nil fuel 0 e H0 l0 (or_intror Z)) as A0.
    destruct (GO _ _ _ _ _ _ _ E) as [(u0 & X & ->)|(u0 & o & u1 & X & -> & Y)]; rewrite X in A0; [tauto|].
    pose proof (try_awake_nil fuel o e H1 l1 (or_intror Z)) as A1. rewrite ID, (try_decode_go _ _ _ _ _ _ X).
    destruct Y as [Y|Y]; rewrite Y in A1; [|tauto]. now rewrite (try_decode_go _ _ _ _ _ _ Y).
  - intros P [s0 s1] fuel buf e s' n [l0 l1] Z E. apply andb_prop in P. destruct P as [P0 P1]. cbn in l0, l1.
    pose proof (try_awake fuel 0 buf e H0 l0) as A0.
    destruct (GO _ _ _ _ _ _ _ E) as [(u0 & X & ->)|(u0 & o & u1 & X & -> & Y)]; rewrite X in A0.
    { destruct A0 as (_ & _ & _ & A). rewrite (A P0) in Z. discriminate. }
    pose proof (try_awake fuel o buf e H1 l1) as A1. rewrite ID, (try_decode_go _ _ _ _ _ _ X).
    destruct Y as [Y|Y]; rewrite Y in A1; [now rewrite (try_decode_go _ _ _ _ _ _ Y)|].
    destruct A1 as (_ & _ & _ & A). rewrite (A P1) in Z. discriminate.
  - intros P [s0 s1] fuel buf e s' n [l0 l1] E. apply andb_prop in P. destruct P as [P0 P1]. cbn in l0, l1.
    pose proof (try_awake fuel 0 buf e H0 l0) as A0.
    destruct (GO _ _ _ _ _ _ _ E) as [(u0 & X & ->)|(u0 & o & u1 & X & -> & Y)]; rewrite X in A0.
    { intros _. rewrite pair_zero. tauto. }
    pose proof (try_awake fuel o buf e H1 l1) as A1. rewrite ID, (try_decode_go _ _ _ _ _ _ X), pair_zero.
    destruct Y as [Y|Y]; rewrite Y in A1; [rewrite (try_decode_go _ _ _ _ _ _ Y); discriminate|tauto].
  - intros P [s0 s1] s' i [l0 l1]. cbn in l0, l1 |- *.
    destruct (dec_finish D0 s0) as [u0 [j0| | |]] eqn:E0; cbn; try nope.
    destruct (dec_finish D1 s1) as [u1 [j1| | |]] eqn:E1; cbn; intros [= <- <-].
    rewrite pair_zero. apply orb_prop in P. intros [Z0 Z1]. destruct P as [P|P].
    + exact (aw_first H0 P l0 E0 Z0).
    + exact (aw_first H1 P l1 E1 Z1).
Qed.
Lemma awake_and_then : forall p0 p1 t1 k1 S0 S1 I0 I1 (D0 : Decoder S0 I0) (D1 : Decoder S1 I1) (f : I0 -> S1) s0,
  awake p0 true true D0 s0 -> (forall i0, exists L1, awake_step p1 t1 k1 D1 L1 /\ L1 (f i0)) ->
  awake (p0 && p1) t1 true (and_then_decoder D0 D1 f) (and_then_new s0).
Proof.
  intros p0 p1 t1 k1 S0 S1 I0 I1 D0 D1 f s0 (L0 & H0 & h0 & z0) F1.
  set (L1 := fun s1 => exists L, awake_step p1 t1 k1 D1 L /\ L s1).
  assert (H1 : awake_step p1 t1 k1 D1 L1).
  { constructor.
    - intros ? ? ? ? ? ? (L & A & l) E. exists L. split; auto. exact (aw_decode A l E).
    - intros ? ? ? (L & A & l) E. exists L. split; auto. exact (aw_finish A l E).
    - intros ? ? ? ? ? (L & A & l) Z E. exact (aw_zero A l Z E).
    - intros ? ? ? ? ? (L & A & l) Z E. exact (aw_eos A l Z E).
    - intros P ? ? ? ? ? ? (L & A & l) Z E. exact (aw_prompt A P l Z E).
    - intros P ? ? ? ? ? ? (L & A & l) E. exact (aw_on A P l E).
    - intros P ? ? ? (L & A & l) E. exact (aw_first A P l E). }
  assert (h1 : forall i0, L1 (f i0)) by exact F1. clearbody L1. clear F1.
  exists (fun st => L0 (at_inner0 st) /\ ~ zero D0 (at_inner0 st) /\ forall s1, at_inner1 st = Some s1 -> L1 s1).
  split; [|split; [cbn; repeat split; auto; discriminate|intros _; exact (z0 eq_refl)]]. clear s0 h0 z0.
  (** The decoder [D1] is called last, or [D0] has got further. *)
  assert (GO : forall st fuel buf e st' n, L0 (at_inner0 st) -> ~ zero D0 (at_inner0 st) ->
    (forall s1, at_inner1 st = Some s1 -> L1 s1) ->
    dec_decode (and_then_decoder D0 D1 f) fuel st buf e = (st', Ok n) ->
    L0 (at_inner0 st') /\ ~ zero D0 (at_inner0 st') /\
    ((at_inner1 st = None /\ at_inner1 st' = None /\ try_decode D0 fuel (at_inner0 st) 0 buf e = TRet (at_inner0 st') (Ok n)) \/
     exists s1 o t1, L1 s1 /\ at_inner1 st' = Some t1 /\ (at_inner1 st = None \/ at_inner1 st = Some s1) /\
       (try_decode D1 fuel s1 o buf e = TGo t1 n \/ try_decode D1 fuel s1 o buf e = TRet t1 (Ok n)))).
  { intros [s0 o1] fuel buf e st' n l0 z l1. cbn in l0, z, l1. cbn [dec_decode and_then_decoder].
    unfold and_then_decode, and_then_body. cbn [at_inner0 at_inner1].
    destruct o1 as [s1|].
    - destruct (try_decode D1 fuel s1 0 buf e) as [u1 o1|u1 r1] eqn:E1; intros [= <- Q]; try subst r1; cbn;
        split; auto; split; auto; right; exists s1, 0, u1; repeat split; auto; first [left; congruence|right; congruence].
    - pose proof (try_awake fuel 0 buf e H0 l0) as A0.
      destruct (try_decode D0 fuel s0 0 buf e) as [u0 o0|u0 r0].
      + destruct (dec_finish D0 u0) as [v0 [i0| | |]] eqn:Fi; try nope.
        pose proof (aw_finish H0 A0 Fi). pose proof (aw_first H0 eq_refl A0 Fi).
        destruct (try_decode D1 fuel (f i0) o0 buf e) as [u1 o1|u1 r1] eqn:E1; intros [= <- Q]; try subst r1; cbn;
          split; auto; split; auto; right; exists (f i0), o0, u1; repeat split; auto; first [left; congruence|right; congruence].
      + intros [= <- ->]. cbn. destruct A0 as (A & B & C & _). auto 6. }
  constructor.
  - intros st fuel buf e st' n (l0 & z & l1) E.
    destruct (GO _ _ _ _ _ _ l0 z l1 E) as (X & Y & [(_ & W & _)|(s1 & o & u1 & h & W & _ & V)]); repeat split; auto;
      rewrite W; [discriminate|]. intros ? [= <-].
    pose proof (try_awake fuel o buf e H1 h) as A1. destruct V as [V|V]; rewrite V in A1; tauto.
  - intros [s0 [s1|]] st' i (l0 & z & l1); cbn in *; [|nope].
    destruct (dec_finish D1 s1) as [v1 r] eqn:Fi. cbn. intros [= <- ->]. cbn. repeat split; auto. discriminate.
  - intros [s0 [s1|]] fuel e st' n (l0 & z & l1) Z E; [|contradiction].
    destruct (GO _ _ _ _ _ _ l0 z l1 E) as (_ & _ & [(W & _)|(s2 & o & u1 & h & W & [W2|W2] & V)]); try discriminate.
    cbn in W2. injection W2 as <-. pose proof (try_awake_nil fuel o e H1 h (or_introl Z)) as A1.
    cbn. rewrite W. destruct V as [V|V]; rewrite V in A1; [|tauto]. exact (try_decode_go _ _ _ _ _ _ V).
  - intros st fuel e st' n (l0 & z & l1) Z E.
    destruct (GO _ _ _ _ _ _ l0 z l1 E) as (_ & _ & [(_ & _ & W)|(s2 & o & u1 & h & W & _ & V)]).
    { pose proof (try_awake_nil fuel 0 e H0 l0 (or_intror Z)) as A0. rewrite W in A0. tauto. }
    pose proof (try_awake_nil fuel o e H1 h (or_intror Z)) as A1.
    cbn. rewrite W. destruct V as [V|V]; rewrite V in A1; [|tauto]. exact (try_decode_go _ _ _ _ _ _ V).
  - intros P st fuel buf e st' n (l0 & z & l1) Z E. apply andb_prop in P. destruct P as [P0 P1].
    destruct (GO _ _ _ _ _ _ l0 z l1 E) as (_ & _ & [(_ & _ & W)|(s2 & o & u1 & h & W & _ & V)]).
    { pose proof (try_awake fuel 0 buf e H0 l0) as A0. rewrite W in A0. destruct A0 as (_ & _ & _ & A).
      rewrite (A P0) in Z. discriminate. }
    pose proof (try_awake fuel o buf e H1 h) as A1.
    cbn. rewrite W. destruct V as [V|V]; rewrite V in A1; [exact (try_decode_go _ _ _ _ _ _ V)|].
    destruct A1 as (_ & _ & _ & A). rewrite (A P1) in Z. discriminate.
  - intros P st fuel buf e st' n (l0 & z & l1) E.
    destruct (GO _ _ _ _ _ _ l0 z l1 E) as (_ & NZ & [(_ & W & _)|(s2 & o & u1 & h & W & _ & V)]);
      unfold zero in *; cbn; rewrite W; auto.
    pose proof (try_awake fuel o buf e H1 h) as A1.
    destruct V as [V|V]; rewrite V in A1; [rewrite (try_decode_go _ _ _ _ _ _ V); discriminate|]. tauto.
  - intros _ [s0 [s1|]] st' i (l0 & z & l1); cbn in *; [|nope].
    destruct (dec_finish D1 s1) as [v1 r] eqn:Fi. cbn. intros [= <- ->]. exact z.
Qed.
Lemma awake_collect : forall p S I (D : Decoder S I) s,
  awake p true true D s -> awake p true true (collect_decoder D) (collect_new s).
Proof.
  intros p S I D s (L & H & h & z). exists (fun st => L (cl_inner st) /\ ~ zero D (cl_inner st)).
  split; [|split; [cbn; auto|exact z]]. clear s h z.
  assert (GO : forall fuel e buf n s items off st' m, L s -> ~ zero D s ->
    collect_loop D n fuel s items off buf e = (st', Ok m) ->
    L (cl_inner st') /\ ~ zero D (cl_inner st') /\ (p = true -> is_reached e = true -> cl_eos st' = true)).
  { intros fuel e buf. induction n as [|n IH]; intros s items off st' m l z; cbn [collect_loop].
    - destruct (off <? length buf); [nope|]. intros [= <- <-]. auto.
    - destruct (off <? length buf); [|intros [= <- <-]; auto].
      pose proof (try_awake fuel off buf e H l) as A.
      destruct (try_decode D fuel s off buf e) as [u o|u r].
      + destruct (dec_finish D u) as [v [i| | |]] eqn:Fi; try nope. apply IH.
        * exact (aw_finish H A Fi).
        * exact (aw_first H eq_refl A Fi).
      + intros [= <- ->]. cbn. destruct A as (A1 & A2 & A3 & A4). repeat split; auto.
        intros P R. rewrite (A4 P) in R. discriminate. }
  constructor.
  - intros [s it [|]] fuel buf e st' n [l z]; cbn in *; [intros [= <- <-]; auto|]. intros E. destruct (GO _ _ _ _ _ _ _ _ _ l z E). tauto.
  - intros [s it [|]] st' i [l z]; cbn in *; [intros [= <- <-]; auto|discriminate].
  - intros [s it [|]] fuel e st' n [l z] Z; cbn in *; [intros [= <- <-]; auto|contradiction].
  - intros [s it [|]] fuel e st' n [l z] R; cbn; [intros [= <- <-]; auto|]. destruct fuel; cbn; rewrite R; intros [= <- <-]; reflexivity.
  - intros P [s it [|]] fuel buf e st' n [l z] R; cbn in *; [intros [= <- <-]; auto|]. intros E. destruct (GO _ _ _ _ _ _ _ _ _ l z E). tauto.
  - intros _ [s it [|]] fuel buf e st' n [l z]; cbn in *; [intros [= <- <-]; discriminate|]. intros E.
    destruct (GO _ _ _ _ _ _ _ _ _ l z E) as (_ & A & _). unfold zero; cbn. intros ->. exact A.
  - intros _ [s it [|]] st' i [l z]; cbn in *; [intros [= <- <-]; exact z|discriminate].
Qed.
Lemma awake_collectn : forall p S I (D : Decoder S I) s n,
  awake p true true D s -> awake p true false (collectn_decoder D) (collectn_new s n).
Proof.
  intros p S I D s n (L & H & h & z). exists (fun st => L (cn_inner st) /\ ~ zero D (cn_inner st)).
  split; [|split; [cbn; auto|discriminate]]. clear s n h z.
  assert (GO : forall fuel e buf n s items off st' m, L s -> ~ zero D s ->
    collectn_loop D fuel n s items off buf e = (st', Ok m) ->
    L (cn_inner st') /\ ~ zero D (cn_inner st') /\ (p = true -> is_reached e = true -> cn_remaining st' = 0)).
  { intros fuel e buf. induction n as [|n IH]; intros s items off st' m l z; cbn [collectn_loop].
    - cbn. intros [= <- <-]. auto.
    - destruct (off <? length buf); [|cbn; destruct (is_reached e) eqn:R; [nope|]; intros [= <- <-]; cbn; repeat split; auto; discriminate].
      pose proof (try_awake fuel off buf e H l) as A.
      destruct (try_decode D fuel s off buf e) as [u o|u r].
      + destruct (dec_finish D u) as [v [i| | |]] eqn:Fi; try nope. apply IH.
        * exact (aw_finish H A Fi).
        * exact (aw_first H eq_refl A Fi).
      + intros [= <- ->]. cbn. destruct A as (A1 & A2 & A3 & A4). repeat split; auto.
        intros P R. rewrite (A4 P) in R. discriminate. }
  constructor.
  - intros [s rm it] fuel buf e st' n [l z]; cbn in *. intros E. destruct (GO _ _ _ _ _ _ _ _ _ l z E). tauto.
  - intros [s rm it] st' i [l z]; cbn in *. destruct (_ =? _); [intros [= <- <-]; auto|discriminate].
  - intros [s [|rm] it] fuel e st' n [l z] Z; cbn in *; [intros [= <- <-]; auto|contradiction].
  - intros [s [|rm] it] fuel e st' n [l z] R; cbn; [intros [= <- <-]; auto|]. rewrite R. discriminate.
  - intros P [s rm it] fuel buf e st' n [l z] R; cbn in *. intros E. destruct (GO _ _ _ _ _ _ _ _ _ l z E) as (_ & _ & A).
    rewrite (A P R). reflexivity.
  - intros _ [s rm it] fuel buf e st' n [l z]; cbn in *. intros E.
    destruct (GO _ _ _ _ _ _ _ _ _ l z E) as (_ & A & _). unfold zero; cbn. intros ->. exact A.
  - discriminate.
Qed.

(** ** Terms *)
Lemma awake_step_weaken : forall p t k p' t' k' S I (D : Decoder S I) L,
  (p' = true -> p = true) -> (t' = true -> t = true) -> (k' = true -> k = true) ->
  awake_step p t k D L -> awake_step p' t' k' D L.
Proof.
  intros p t k p' t' k' S I D L P T K [H1 H2 H3 H4 H5 H6 H7]. constructor; auto.
  - intros Q. exact (H5 (P Q)).
  - intros Q. exact (H6 (T Q)).
  - intros Q. exact (H7 (K Q)).
Qed.
Lemma num_awake : forall T (item : list byte -> T) n, awake true true true (num_decoder item) (num_dec_new (S n)).
Proof. intros T item n. exact (awake_num item (S n)). Qed.
Lemma udec_awake : forall k, awake true true true (udec k) (udec0 k).
Proof. destruct k; apply num_awake. Qed.
Lemma sdec_awake : forall k, awake true true true (sdec k) (sdec0 k).
Proof. destruct k; apply num_awake. Qed.
Lemma awake_dep : forall p t k S0 S1 I0 I1 (D0 : Decoder S0 I0) (D1 : Decoder S1 I1) (f : I0 -> S1) s0,
  awake true true true D0 s0 -> (forall i0, exists k', awake p t k' D1 (f i0)) -> k = true ->
  awake p t k (and_then_decoder D0 D1 f) (and_then_new s0).
Proof.
  intros p t k S0 S1 I0 I1 D0 D1 f s0 H0 H1 ->. change p with (true && p).
  apply awake_and_then with (k1 := false); auto. intros i0. destruct (H1 i0) as (k' & L & A & l & _).
  exists L. split; auto. eapply awake_step_weaken; [..|exact A]; auto. discriminate.
Qed.
Lemma term_awake :
  (forall A (c : codec A), asks c -> awake (prompt c) (asks_on c) (asks_first c) (decoder c) (dec_fresh c)) /\
  (forall A (p : parts A), pasks p ->
     parts_ok (psem_dec (psem p)) /\
     awake (pprompt p) (pasks_on p) (pasks_first p) (tuple_of_dec_parts (psem_dec (psem p))) (pdec0 (psem p))).
Proof.
  apply codec_parts_ind; unfold decoder, dec_fresh; cbn [asks pasks prompt pprompt asks_on pasks_on asks_first pasks_first sem psem sem_dec dec0 psem_dec pdec0]; intros.
  - apply udec_awake.
  - apply sdec_awake.
  - apply awake_null.
  - apply awake_copy.
  - apply awake_bytes.
  - apply awake_rem; reflexivity.
  - apply awake_utf8, awake_rem; reflexivity.
  - apply awake_utf8, awake_copy.
  - pose proof (awake_length (N.of_nat n) pad_honest (awake_pad (Some b))) as X.
    replace (negb (n =? 0)) with (negb (N.of_nat n =? 0)%N) by lia. exact X.
  - apply awake_mono.
  - now apply H.
  - apply awake_map; auto.
  - apply awake_try_map; auto.
  - apply awake_map_err; auto.
  - apply awake_omit; auto.
  - eapply awake_length; [apply term_honest|apply H; auto].
  - eapply awake_length; [apply term_honest|apply H; auto].
  - apply awake_max; auto.
  - apply awake_peek; auto.
  - contradiction.
  - auto.
  - destruct H0 as (A1 & A2 & A3). specialize (H A3). rewrite A1, A2 in H. apply awake_collect; auto.
  - destruct H0 as (A1 & A2 & A3). specialize (H A3). rewrite A1, A2 in H. apply awake_collectn; auto.
  - apply awake_dep; [apply udec_awake| |reflexivity]. intros i0. eexists. eapply awake_length; [apply term_honest|apply H; auto].
  - apply awake_dep; [apply udec_awake| |reflexivity]. intros i0. eexists.
    destruct H0 as (A1 & A2 & A3). specialize (H A3). rewrite A1, A2 in H. apply awake_collectn; auto.
  - apply awake_dep; [apply udec_awake| |reflexivity]. intros i0. eexists. apply awake_omit; auto.
  - split; [apply dp_snoc_ok, dp_one_ok|]. apply awake_pair; [apply H|apply H0]; tauto.
  - destruct H as [OK L]; try tauto. split; [now apply dp_snoc_ok|].
    pose proof (tuple_snoc_eq (sem_dec (sem c)) OK) as (E1 & E2 & E3 & E4).
    apply awake_via with (D := tuple2_decoder (tuple_of_dec_parts (psem_dec (psem p))) (sem_dec (sem c)));
      [..|apply awake_pair; [exact L|apply H0; tauto]].
    + intros fuel s buf e s' m. rewrite E1. auto.
    + intros s s' j. rewrite E2. eauto.
    + intros [s0 s1]. rewrite pair_zero. unfold zero. cbn.
      destruct (dp_req (psem_dec (psem p)) (Finite 0) s0) as [q0| | |]; cbn -[add_for_decoding];
        try (split; [discriminate|intros [? _]; discriminate]).
      destruct (dec_req (sem_dec (sem c)) s1) as [q1| | |]; cbn -[add_for_decoding];
        try (split; [discriminate|intros [_ ?]; discriminate]).
      rewrite add_zero. split; [intros [-> ->]; auto|]. intros [[= ->] [= ->]]. auto.
    + intros s. now rewrite E4.
Qed.
