(** * No decoder of the crate reports more consumed bytes than it was offered, in any state. *)
From Verif Require Export Observe UniverseProofs.
Set Implicit Arguments.

Lemma honest_sub : forall S I J (D : Decoder S I) (D' : Decoder S J),
  (forall fuel s buf e s' n, dec_decode D' fuel s buf e = (s', Ok n) -> exists s1, dec_decode D fuel s buf e = (s1, Ok n)) ->
  honest D -> honest D'.
Proof. intros S I J D D' A H fuel s buf e s' n E. destruct (A _ _ _ _ _ _ E). eauto. Qed.

Lemma copy_honest : forall B (BX : ByteBox B), honest (copy_decoder BX).
Proof.
  intros B BX fuel s buf e s' n. cbn. unfold copy_decode. destruct (usize_sub _ _); [|discriminate].
  cbn. destruct (_ && _); intros [= <- <-]. lia.
Qed.
Lemma bytes_honest : forall B (BX : ByteBox B), honest (bytes_decoder BX).
Proof.
  intros B BX fuel [[b|] off] buf e s' n; cbn; unfold bytes_decode; cbn.
  2: { intros [= <- <-]; lia. }
  destruct (usize_sub _ _); [|discriminate]. cbn. destruct (_ && _); intros [= <- <-]. lia.
Qed.
Lemma rem_honest : honest rem_decoder.
Proof.
  intros fuel s buf e s' n; cbn; unfold rem_decode. destruct (rm_eos s); [intros [= <- <-]; lia|].
  destruct (bc_to_u64 _); [destruct (_ <=? _)%N|]; intros [= <- <-]; lia.
Qed.
Lemma null_honest : honest null_decoder.
Proof. intros fuel s buf e s' n [= <- <-]. lia. Qed.
Lemma pad_honest : honest pad_decoder.
Proof.
  intros fuel s buf e s' n; cbn; unfold pad_decode.
  destruct (pd_eos s), (pd_expected s); repeat match goal with |- context [match ?x with _ => _ end] => destruct x end; intros [= <- <-]; lia.
Qed.
Lemma mono_honest : forall I (f : MonoDecode I), honest (mono_decoder f).
Proof.
  intros I f fuel s buf e s' n; cbn; unfold mono_decode.
  repeat match goal with |- context [match ?x with _ => _ end] => destruct x end; intros [= <- <-]; lia.
Qed.

Section One.
Context {S I : Type} (D : Decoder S I) (HD : honest D).
Lemma try_honest : forall fuel s off buf e, off <= length buf ->
  match try_decode D fuel s off buf e with
  | TGo _ o => off <= o <= length buf
  | TRet _ (Ok o) => off <= o <= length buf
  | _ => True
  end.
Proof.
  intros fuel s off buf e L. unfold try_decode. destruct (dec_idle D s); [lia|].
  unfold slice_from. destruct (Nat.leb_spec off (length buf)); auto.
  destruct (dec_decode D fuel s (skipn off buf) e) as [s1 [n| | |]] eqn:E; auto.
  apply HD in E. rewrite skipn_length in E. destruct (dec_idle D s1); lia.
Qed.
Lemma length_honest : honest (length_decoder D).
Proof.
  intros fuel [s ex rm] buf e s' n; cbn; unfold length_decode; cbn.
  set (limit := N.min (len buf) rm).
  destruct (dec_decode D fuel s (firstn (N.to_nat limit) buf) _) as [s1 r] eqn:E.
  assert (G : forall x, match r with
        | Ok size => match u64_sub rm (N.of_nat size) with
             | Some rem => (mkLength s1 ex rem, Ok size)
             | None => (mkLength s1 ex rm, Panic) end
        | r' => (mkLength s1 ex rm, r') end = (x, Ok n) -> n <= length buf).
  { intros x. destruct r; try discriminate. apply HD in E. rewrite firstn_length in E.
    destruct (u64_sub _ _); [|discriminate]. intros [= _ <-]. lia. }
  destruct (bc_to_u64 _); [destruct (u64_add _ _); [destruct (_ <=? _)%N|]|]; try discriminate; apply G.
Qed.
Lemma max_honest : honest (max_decoder D).
Proof.
  intros fuel [s c mx] buf e s' n; cbn; unfold max_decode; cbn. destruct (max_check _ _ _); try discriminate.
  destruct (dec_decode D fuel s buf e) as [s1 [k| | |]] eqn:E; try discriminate. apply HD in E.
  destruct (u64_add _ _); [|discriminate]. intros [= _ <-]. auto.
Qed.
Lemma omit_honest : honest (omit_decoder D).
Proof.
  intros fuel [s b] buf e s' n; cbn. destruct b; [intros [= <- <-]; lia|].
  destruct (dec_decode D fuel s buf e) as [s1 r] eqn:E. intros [= _ ->]. eauto.
Qed.
Lemma peek_honest : honest (peek_decoder D).
Proof.
  intros fuel [s o] buf e s' n; cbn; unfold peek_decode; cbn. destruct o; [intros [= <- <-]; lia|].
  destruct (dec_decode D fuel s buf e) as [s1 [k| | |]] eqn:E; try discriminate. apply HD in E.
  destruct (dec_idle D s1); [|intros [= _ <-]; auto].
  destruct (dec_finish D s1) as [s2 [i| | |]]; try discriminate. intros [= _ <-]; auto.
Qed.
Lemma maybe_honest : honest (maybe_decoder D).
Proof.
  intros fuel [s b] buf e s' n; cbn; unfold maybe_decode; cbn.
  match goal with |- context [dec_decode D fuel s buf ?x] =>
      destruct (dec_decode D fuel s buf x) as [s1 [size| | |]] eqn:E1; try discriminate end.
  apply HD in E1. intros [= _ <-]. auto.
Qed.
Lemma slice_honest : honest (slice_decoder D).
Proof.
  intros fuel [s c] buf e s' n; cbn; unfold slice_decode; cbn. destruct (eos_back _ _); [|discriminate].
  destruct (dec_decode D fuel s _ _) as [s1 [size| | |]] eqn:E; try discriminate.
  apply HD in E. rewrite firstn_length in E. destruct (u64_sub _ _); [|discriminate]. intros [= _ <-]. lia.
Qed.
Lemma map_err_honest : forall f, honest (map_err_decoder D f).
Proof.
  intros f. eapply honest_sub with (D := D); auto. cbn. intros fuel s buf e s' n.
  destruct (dec_decode D fuel s buf e) as [s1 [k| | |]]; cbn; try discriminate. intros [= <- <-]. eauto.
Qed.
Lemma collect_honest : honest (collect_decoder D).
Proof.
  intros fuel [s it eos] buf e s' n; cbn. destruct eos; [intros [= <- <-]; lia|].
  assert (O : 0 <= length buf) by lia. revert O. generalize 0 as off. generalize fuel at 1 as m.
  intros m. revert s it. induction m; intros s it off O; cbn [collect_loop].
  - destruct (off <? length buf); intros [= _ <-]; auto.
  - destruct (off <? length buf); [|intros [= _ <-]; auto].
    pose proof (try_honest fuel s buf e O) as T.
    destruct (try_decode D fuel s off buf e) as [t o|t [o| | |]]; try discriminate; [|intros [= _ <-]; lia].
    destruct (dec_finish D t) as [u [i| | |]]; try discriminate. apply IHm. lia.
Qed.
Lemma collectn_honest : honest (collectn_decoder D).
Proof.
  intros fuel [s rm it] buf e s' n; cbn.
  assert (O : 0 <= length buf) by lia. revert O. generalize 0 as off.
  revert s it. induction rm; intros s it off O; cbn [collectn_loop].
  - cbn. intros [= _ <-]; auto.
  - destruct (off <? length buf); [|destruct (_ && _); intros [= _ <-]; auto].
    pose proof (try_honest fuel s buf e O) as T.
    destruct (try_decode D fuel s off buf e) as [t o|t [o| | |]]; try discriminate; [|intros [= _ <-]; lia].
    destruct (dec_finish D t) as [u [i| | |]]; try discriminate. apply IHrm. lia.
Qed.
End One.
Section Two.
Context {S0 S1 I0 I1 : Type} (D0 : Decoder S0 I0) (D1 : Decoder S1 I1) (H0 : honest D0) (H1 : honest D1).
Lemma pair_honest : honest (tuple2_decoder D0 D1).
Proof.
  intros fuel [s0 s1] buf e s' n.
  unfold tuple2_decoder, tuple_of_dec_parts, dec_decode, dec_parts2, dp_snoc, dp_decode, dp_one. cbn [fst snd].
  pose proof (try_honest H0 fuel s0 (off := 0) buf e ltac:(lia)) as T0.
  destruct (try_decode D0 fuel s0 0 buf e) as [t0 o0|t0 [o0| | |]]; try discriminate; [|intros [= _ <-]; lia].
  pose proof (try_honest H1 fuel s1 (off := o0) buf e ltac:(lia)) as T1.
  destruct (try_decode D1 fuel s1 o0 buf e) as [t1 o1|t1 [o1| | |]]; try discriminate; intros [= _ <-]; lia.
Qed.
Lemma and_then_honest : forall f, honest (and_then_decoder D0 D1 f).
Proof.
  intros f fuel [s0 o1] buf e s' n. cbn [dec_decode and_then_decoder].
  unfold and_then_decode, and_then_body; cbn [at_inner0 at_inner1].
  assert (B : forall s1 t0 off, off <= length buf ->
    match try_decode D1 fuel s1 off buf e with
    | TRet s1' r => (mkAndThen t0 (Some s1'), r)
    | TGo s1' off' => (mkAndThen t0 (Some s1'), Ok off')
    end = (s', Ok n) -> n <= length buf).
  { intros s1 t0 off L. pose proof (try_honest H1 fuel s1 buf e L) as T.
    destruct (try_decode D1 fuel s1 off buf e) as [t1 o|t1 [o| | |]]; intros [= _ <-]; lia. }
  destruct o1 as [s1|]; [apply B; lia|].
  pose proof (try_honest H0 fuel s0 (off := 0) buf e ltac:(lia)) as T0.
  destruct (try_decode D0 fuel s0 0 buf e) as [t0 o0|t0 [o0| | |]]; try discriminate; [|intros [= _ <-]; lia].
  destruct (dec_finish D0 t0) as [u [i| | |]]; try discriminate. apply B; lia.
Qed.
End Two.
Lemma num_honest : forall T (item : list byte -> T), honest (num_decoder item).
Proof. intros T item. exact (copy_honest vec_box). Qed.

Lemma term_honest :
  (forall A (c : codec A), honest (decoder c)) /\
  (forall A (p : parts A), parts_ok (psem_dec (psem p)) /\ honest (tuple_of_dec_parts (psem_dec (psem p)))).
Proof.
  apply codec_parts_ind; unfold decoder; cbn; intros.
  - destruct k; apply num_honest.
  - destruct k; apply num_honest.
  - apply null_honest.
  - apply copy_honest.
  - apply bytes_honest.
  - apply rem_honest.
  - exact rem_honest.
  - exact (copy_honest vec_box).
  - apply length_honest, pad_honest.
  - apply mono_honest.
  - tauto.
  - exact H.
  - exact H.
  - now apply map_err_honest.
  - now apply omit_honest.
  - now apply length_honest.
  - now apply length_honest.
  - now apply max_honest.
  - now apply peek_honest.
  - now apply maybe_honest.
  - exact H.
  - now apply collect_honest.
  - now apply collectn_honest.
  - apply and_then_honest; [destruct k; apply num_honest|now apply length_honest].
  - apply and_then_honest; [destruct k; apply num_honest|now apply collectn_honest].
  - apply and_then_honest; [destruct k; apply num_honest|now apply omit_honest].
  - split; [apply dp_snoc_ok, dp_one_ok|]. now apply pair_honest.
  - destruct H as [OK H]. split; [now apply dp_snoc_ok|].
    eapply honest_sub; [|exact (pair_honest H H0)].
    intros fuel s buf e s' n E. destruct (tuple_snoc_eq (decoder c) OK) as (E1 & _).
    exists s'. rewrite <- E. now rewrite E1.
Qed.
