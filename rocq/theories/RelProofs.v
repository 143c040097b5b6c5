(** * Debug and release builds do the same until the debug build panics: every combinator preserves it *)
From Verif Require Export Release.
From Coq Require Import Lia ZifyBool ZifyNat ZifyN.
Set Implicit Arguments.
Local Arguments Nat.eqb : simpl never.
Local Arguments Nat.ltb : simpl never.
Local Arguments N.eqb : simpl never.
Local Arguments N.leb : simpl never.
Local Arguments N.ltb : simpl never.
Local Arguments N.add : simpl never.
Local Arguments N.sub : simpl never.
Local Arguments N.min : simpl never.

Record dagree {S I} (D D' : Decoder S I) : Prop := {
  da_decode : forall fuel s buf e, snd (dec_decode D fuel s buf e) = Panic \/ dec_decode D' fuel s buf e = dec_decode D fuel s buf e;
  da_finish : forall s, snd (dec_finish D s) = Panic \/ dec_finish D' s = dec_finish D s;
  da_req : forall s, dec_req D s = Panic \/ dec_req D' s = dec_req D s;
  da_idle : forall s, dec_idle D' s = dec_idle D s }.
Record eagree {S I} (E E' : Encoder S I) : Prop := {
  ea_encode : forall fuel s buf e, snd (enc_encode E fuel s buf e) = Panic \/ enc_encode E' fuel s buf e = enc_encode E fuel s buf e;
  ea_start : forall fuel s i, snd (enc_start E fuel s i) = Panic \/ enc_start E' fuel s i = enc_start E fuel s i;
  ea_req : forall s, enc_req E s = Panic \/ enc_req E' s = enc_req E s;
  ea_idle : forall s, enc_idle E' s = enc_idle E s }.

Lemma u64_add_w : forall a b c, u64_add a b = Some c -> wadd a b = c.
Proof. intros a b c H. unfold u64_add, wadd in *. destruct (a + b <=? u64_max)%N; congruence. Qed.
Lemma u64_sub_w : forall a b c, u64_sub a b = Some c -> wsub a b = c.
Proof. intros a b c H. unfold u64_sub, wsub in *. destruct (b <=? a)%N; congruence. Qed.
Lemma add_dec_w : forall a b, add_for_decoding a b = Panic \/ add_for_decoding a b = Ok (w_add_for_decoding a b).
Proof.
  intros [a| |] [b| |]; cbn; auto; try (destruct (_ =? 0)%N; auto; fail).
  unfold opt_finite. destruct (u64_add a b) eqn:U; auto. apply u64_add_w in U. subst. auto.
Qed.
Lemma add_enc_w : forall a b, add_for_encoding a b = Panic \/ add_for_encoding a b = Ok (w_add_for_encoding a b).
Proof.
  intros [a| |] [b| |]; cbn; auto.
  unfold opt_finite. destruct (u64_add a b) eqn:U; auto. apply u64_add_w in U. subst. auto.
Qed.
Lemma eos_back_w : forall e n e', eos_back e n = Some e' -> w_eos_back e n = e'.
Proof.
  intros [m| |] n e' H; cbn in *; try congruence. destruct (u64_add m n) eqn:U; cbn in H; [|discriminate].
  apply u64_add_w in U. congruence.
Qed.

Lemma dagree_refl : forall S I (D : Decoder S I), dagree D D.
Proof. intros. constructor; auto. Qed.
Lemma eagree_refl : forall S I (E : Encoder S I), eagree E E.
Proof. intros. constructor; auto. Qed.

Section Dec.
  Context {S I : Type} (D D' : Decoder S I) (A : dagree D D').
  Ltac dd := match goal with
    | |- context [dec_decode D' ?f ?s ?b ?e] =>
        let P := fresh "P" in
        destruct (da_decode A f s b e) as [P| ->]; [left; destruct (dec_decode D f s b e) as [? ?]; cbn in P; subst; auto; try reflexivity|]
    | |- context [dec_finish D' ?s] =>
        let P := fresh "P" in
        destruct (da_finish A s) as [P| ->]; [left; destruct (dec_finish D s) as [? ?]; cbn in P; subst; auto; try reflexivity|]
    end.
  Lemma try_w : forall fuel s off buf e,
    (exists s', try_decode D fuel s off buf e = TRet s' Panic) \/ try_decode D' fuel s off buf e = try_decode D fuel s off buf e.
  Proof.
    intros. unfold try_decode. rewrite (da_idle A). destruct (dec_idle D s); auto. destruct (slice_from off buf); [|left; eauto].
    destruct (da_decode A fuel s l e) as [P|P].
    - left. destruct (dec_decode D fuel s l e) as [s' r]. cbn in P. subst. eauto.
    - rewrite P. destruct (dec_decode D fuel s l e) as [s' [n|k| |]]; auto. rewrite (da_idle A). auto.
  Qed.
  Lemma map_w : forall T (f : I -> T), dagree (map_decoder D f) (map_decoder D' f).
  Proof.
    intros. constructor; cbn; intros; [apply A| |apply A|apply A]. dd. auto.
  Qed.
  Lemma try_map_w : forall T (f : I -> T + ErrorKind), dagree (try_map_decoder D f) (try_map_decoder D' f).
  Proof. intros. constructor; cbn; intros; [apply A| |apply A|apply A]. dd. auto. Qed.
  Lemma map_err_w : forall f, dagree (map_err_decoder D f) (map_err_decoder D' f).
  Proof. intros. constructor; cbn; intros; [| |apply A|apply A]; dd; auto. Qed.
  Lemma omit_w : dagree (omit_decoder D) (omit_decoder D').
  Proof.
    constructor; cbn; intros.
    - destruct (om_omit s); auto. dd; auto.
    - destruct (om_omit s); auto. dd; auto.
    - destruct (om_omit s); auto. apply A.
    - now rewrite (da_idle A).
  Qed.
  Lemma collect_loop_w : forall n fuel s items off buf e,
    snd (collect_loop D n fuel s items off buf e) = Panic \/ collect_loop D' n fuel s items off buf e = collect_loop D n fuel s items off buf e.
  Proof.
    induction n as [|n IH]; intros; cbn [collect_loop]; destruct (off <? length buf); auto.
    destruct (try_w fuel s off buf e) as [[s' P]|P]; rewrite P; auto.
    destruct (try_decode D fuel s off buf e) as [s' off'|s' r]; auto.
    destruct (da_finish A s') as [Q|Q]; [|rewrite Q].
    - left. destruct (dec_finish D s') as [? r]. cbn in Q. subst. reflexivity.
    - destruct (dec_finish D s') as [s'' [i|k| |]]; auto.
  Qed.
  Lemma collect_w : dagree (collect_decoder D) (collect_decoder D').
  Proof.
    constructor; cbn; intros; auto.
    - destruct (cl_eos s); auto. apply collect_loop_w.
    - destruct (cl_eos s); auto. apply A.
  Qed.
  Lemma collectn_loop_w : forall n fuel s items off buf e,
    snd (collectn_loop D fuel n s items off buf e) = Panic \/ collectn_loop D' fuel n s items off buf e = collectn_loop D fuel n s items off buf e.
  Proof.
    induction n as [|n IH]; intros; cbn [collectn_loop]; auto. destruct (off <? length buf); auto.
    destruct (try_w fuel s off buf e) as [[s' P]|P]; rewrite P; auto.
    destruct (try_decode D fuel s off buf e) as [s' off'|s' r]; auto.
    destruct (da_finish A s') as [Q|Q]; [|rewrite Q].
    - left. destruct (dec_finish D s') as [? r]. cbn in Q. subst. reflexivity.
    - destruct (dec_finish D s') as [s'' [i|k| |]]; auto.
  Qed.
  Lemma collectn_w : dagree (collectn_decoder D) (collectn_decoder D').
  Proof.
    constructor; cbn; intros; auto.
    - apply collectn_loop_w.
    - destruct (cn_remaining s =? 0); auto. apply A.
  Qed.
  Lemma length_w : dagree (length_decoder D) (w_length_decoder D').
  Proof.
    constructor; cbn [dec_decode dec_finish dec_req dec_idle w_length_decoder length_decoder]; intros; auto.
    - unfold length_decode, w_length_decode.
      set (x := eos_with_remaining _). set (b := firstn _ _).
      assert (G : forall (X : Length S * res nat -> Prop),
        (snd (let '(s', r) := dec_decode D fuel (ln_inner s) b x in
             match r with
             | Ok size => match u64_sub (ln_remaining s) (N.of_nat size) with
                          | Some rem => (mkLength s' (ln_expected s) rem, Ok size)
                          | None => (mkLength s' (ln_expected s) (ln_remaining s), Panic) end
             | r' => (mkLength s' (ln_expected s) (ln_remaining s), r') end) = Panic) \/
        (let '(s', r) := dec_decode D' fuel (ln_inner s) b x in
             match r with
             | Ok size => (mkLength s' (ln_expected s) (wsub (ln_remaining s) (N.of_nat size)), Ok size)
             | r' => (mkLength s' (ln_expected s) (ln_remaining s), r') end) =
        (let '(s', r) := dec_decode D fuel (ln_inner s) b x in
             match r with
             | Ok size => match u64_sub (ln_remaining s) (N.of_nat size) with
                          | Some rem => (mkLength s' (ln_expected s) rem, Ok size)
                          | None => (mkLength s' (ln_expected s) (ln_remaining s), Panic) end
             | r' => (mkLength s' (ln_expected s) (ln_remaining s), r') end)).
      { intros _. dd. destruct (dec_decode D fuel (ln_inner s) b x) as [s' [n|k| |]]; auto.
        destruct (u64_sub (ln_remaining s) (N.of_nat n)) eqn:U; auto. rewrite (u64_sub_w _ _ U). auto. }
      specialize (G (fun _ => True)).
      destruct (bc_to_u64 (remaining_bytes e)) as [rem|]; auto.
      destruct (u64_add rem (len buf)) as [y|] eqn:U; auto. rewrite (u64_add_w _ _ U).
      destruct (ln_remaining s - N.min (len buf) (ln_remaining s) <=? y)%N; auto.
    - destruct (ln_remaining s =? 0)%N; auto. dd. auto.
    - apply A.
  Qed.
  Lemma max_w : dagree (max_decoder D) (w_max_decoder D').
  Proof.
    constructor; cbn [dec_decode dec_finish dec_req dec_idle w_max_decoder max_decoder]; intros; auto.
    - unfold max_decode, w_max_decode.
      assert (C : max_check s buf e = Panic \/ w_max_check s buf e = max_check s buf e).
      { unfold max_check, w_max_check. destruct (remaining_bytes e) as [m| |]; auto;
          (destruct (u64_sub (mx_max s) (mx_consumed s)) as [c|] eqn:U; auto); rewrite (u64_sub_w _ _ U); auto.
        destruct (u64_add (len buf) m) as [t|] eqn:V; auto. rewrite (u64_add_w _ _ V). auto. }
      destruct C as [->|C]; auto. rewrite C. destruct (max_check s buf e); auto. dd.
      destruct (dec_decode D fuel (mx_inner s) buf e) as [s' [n|k| |]]; auto.
      destruct (u64_add (mx_consumed s) (N.of_nat n)) eqn:U; auto. rewrite (u64_add_w _ _ U). auto.
    - dd. auto.
    - apply A.
    - apply A.
  Qed.
  Lemma slice_w : dagree (slice_decoder D) (w_slice_decoder D').
  Proof.
    constructor; cbn [dec_decode dec_finish dec_req dec_idle w_slice_decoder slice_decoder]; intros; auto.
    - unfold slice_decode, w_slice_decode. set (l := N.min (len buf) (sl_consumable s)).
      destruct (eos_back e (len buf - l)) as [e'|] eqn:B; auto. rewrite (eos_back_w _ _ B). dd.
      destruct (dec_decode D fuel _ _ e') as [s' [n|k| |]]; auto.
      destruct (u64_sub (sl_consumable s) (N.of_nat n)) eqn:U; auto. rewrite (u64_sub_w _ _ U). auto.
    - dd. auto.
    - apply A.
    - apply A.
  Qed.
  Lemma peek_w : dagree (peek_decoder D) (peek_decoder D').
  Proof.
    constructor; cbn [dec_decode dec_finish dec_req dec_idle peek_decoder]; intros; auto.
    - unfold peek_decode. destruct (pk_item s); auto. dd.
      destruct (dec_decode D fuel (pk_inner s) buf e) as [s' [n|k| |]]; auto. rewrite (da_idle A).
      destruct (dec_idle D s'); auto. dd. auto.
    - destruct (pk_item s); auto. apply A.
  Qed.
  Lemma maybe_w : dagree (maybe_decoder D) (maybe_decoder D').
  Proof.
    constructor; cbn [dec_decode dec_finish dec_req dec_idle maybe_decoder]; intros; auto.
    - unfold maybe_decode. dd. auto.
    - dd. auto.
    - apply A.
    - apply A.
  Qed.
End Dec.
Lemma utf8_w : forall S (D D' : Decoder S (list byte)), dagree D D' -> dagree (utf8_decoder D) (utf8_decoder D').
Proof.
  intros S D D' A. constructor; cbn; intros; [apply A| |apply A|apply A].
  destruct (da_finish A s) as [P| ->]; auto. left. destruct (dec_finish D s) as [? r]. cbn in P. subst. reflexivity.
Qed.
Lemma and_then_w : forall S0 S1 I0 I1 (D0 D0' : Decoder S0 I0) (D1 D1' : Decoder S1 I1) f,
  dagree D0 D0' -> dagree D1 D1' -> dagree (and_then_decoder D0 D1 f) (and_then_decoder D0' D1' f).
Proof.
  intros S0 S1 I0 I1 D0 D0' D1 D1' f A0 A1.
  assert (BD : forall fuel (s0 : S0) s1 off buf e,
    snd (and_then_body D1 fuel s0 s1 off buf e) = Panic \/ and_then_body D1' fuel s0 s1 off buf e = and_then_body D1 fuel s0 s1 off buf e).
  { intros. unfold and_then_body. destruct (try_w A1 fuel s1 off buf e) as [[s' P]|P]; rewrite P; auto. }
  constructor; cbn [dec_decode dec_finish dec_req dec_idle and_then_decoder]; intros.
  - unfold and_then_decode. destruct (at_inner1 s); auto.
    destruct (try_w A0 fuel (at_inner0 s) 0 buf e) as [[s' P]|P]; rewrite P; auto.
    destruct (try_decode D0 fuel (at_inner0 s) 0 buf e) as [s0 off|s0 r]; auto.
    destruct (da_finish A0 s0) as [Q|Q]; [|rewrite Q].
    + left. destruct (dec_finish D0 s0) as [? r]. cbn in Q. subst. reflexivity.
    + destruct (dec_finish D0 s0) as [s0' [i|k| |]]; auto.
  - destruct (at_inner1 s) as [s1|]; auto. destruct (da_finish A1 s1) as [Q|Q]; [left; exact Q|right; now rewrite Q].
  - destruct (at_inner1 s); [apply A1|apply A0].
  - destruct (at_inner1 s); auto. apply A1.
Qed.
Lemma rest_w : dagree rem_decoder w_rem_decoder.
Proof.
  constructor; cbn; intros; auto. unfold rem_decode, w_rem_decode. destruct (rm_eos s); auto.
  destruct (bc_to_u64 (remaining_bytes e)) as [m|]; auto.
  destruct (len (rm_buf s) + (len buf + m) <=? isize_max)%N eqn:L; auto. right.
  unfold wadd. replace (len buf + m <=? u64_max)%N with true by (unfold u64_max, isize_max in *; lia). now rewrite L.
Qed.

Record pagree {S I} (P P' : DecParts S I) : Prop := {
  pa_decode : forall fuel s off buf e,
    (exists s', dp_decode P fuel s off buf e = TRet s' Panic) \/ dp_decode P' fuel s off buf e = dp_decode P fuel s off buf e;
  pa_finish : forall s, snd (dp_finish P s) = Panic \/ dp_finish P' s = dp_finish P s;
  pa_req : forall acc s, dp_req P acc s = Panic \/ dp_req P' acc s = dp_req P acc s;
  pa_idle : forall s, dp_idle P' s = dp_idle P s }.
Lemma parts_one_w : forall S I (D D' : Decoder S I), dagree D D' -> pagree (dp_one D) (w_dp_one D').
Proof.
  intros S I D D' A. constructor; cbn [dp_decode dp_finish dp_req dp_idle dp_one w_dp_one]; intros; try apply A.
  - now apply try_w.
  - destruct (da_req A s) as [-> | ->]; auto. destruct (dec_req D s) as [q|k| |]; cbn; auto.
    destruct (add_dec_w acc q) as [-> | ->]; auto.
Qed.
Lemma parts_snoc_w : forall S T I J (P P' : DecParts S I) (D D' : Decoder T J),
  pagree P P' -> dagree D D' -> pagree (dp_snoc P D) (w_dp_snoc P' D').
Proof.
  intros S T I J P P' D D' A B. constructor; cbn [dp_decode dp_finish dp_req dp_idle dp_snoc w_dp_snoc]; intros.
  - destruct (pa_decode A fuel (fst s) off buf e) as [[s' X]|X]; rewrite X; [left; eauto|].
    destruct (dp_decode P fuel (fst s) off buf e) as [s0 o|s0 r]; auto.
    destruct (try_w B fuel (snd s) o buf e) as [[s' Y]|Y]; rewrite Y; [left; eauto|auto].
  - destruct (pa_finish A (fst s)) as [X|X]; [|rewrite X].
    + left. destruct (dp_finish P (fst s)) as [? r]. cbn in X. subst. reflexivity.
    + destruct (dp_finish P (fst s)) as [s0 [i|k| |]]; auto.
      destruct (da_finish B (snd s)) as [Y|Y]; [|rewrite Y; auto].
      left. destruct (dec_finish D (snd s)) as [? r]. cbn in Y. subst. reflexivity.
  - destruct (pa_req A acc (fst s)) as [-> | ->]; auto. destruct (dp_req P acc (fst s)) as [q|k| |]; cbn; auto.
    destruct (da_req B (snd s)) as [-> | ->]; auto. destruct (dec_req D (snd s)) as [q'|k| |]; cbn; auto.
    destruct (add_dec_w q q') as [-> | ->]; auto.
  - now rewrite (pa_idle A), (da_idle B).
Qed.
Lemma tuple_w : forall S I (P P' : DecParts S I), pagree P P' -> dagree (tuple_of_dec_parts P) (tuple_of_dec_parts P').
Proof.
  intros S I P P' A. constructor; cbn; intros; try apply A.
  destruct (pa_decode A fuel s 0 buf e) as [[s' X]|X]; rewrite X; auto.
Qed.

Scheme built_mind := Induction for built Sort Prop with built_parts_mind := Induction for built_parts Sort Prop.
Theorem built_agree : forall S I (D D' : Decoder S I), built D D' -> dagree D D'.
Proof.
  apply (built_mind (fun S I D D' _ => dagree D D') (fun S I P P' _ => pagree P P')); intros.
  - apply dagree_refl.
  - apply rest_w.
  - now apply map_w.
  - now apply try_map_w.
  - now apply map_err_w.
  - now apply utf8_w.
  - now apply and_then_w.
  - now apply omit_w.
  - now apply collect_w.
  - now apply collectn_w.
  - now apply length_w.
  - now apply max_w.
  - now apply slice_w.
  - now apply peek_w.
  - now apply maybe_w.
  - now apply tuple_w.
  - now apply parts_one_w.
  - now apply parts_snoc_w.
Qed.

(** ** Encoders *)
Section Enc.
  Context {S I : Type} (E E' : Encoder S I) (A : eagree E E').
  Ltac dd := match goal with
    | |- context [enc_encode E' ?f ?s ?b ?e] =>
        let P := fresh "P" in
        destruct (ea_encode A f s b e) as [P| ->]; [left; destruct (enc_encode E f s b e) as [[? ?] ?]; cbn in P; subst; auto; try reflexivity|]
    | |- context [enc_start E' ?f ?s ?i] =>
        let P := fresh "P" in
        destruct (ea_start A f s i) as [P| ->]; [left; destruct (enc_start E f s i) as [? ?]; cbn in P; subst; auto; try reflexivity|]
    end.
  Lemma etry_w : forall fuel s off buf e,
    (exists s' b, try_encode E fuel s off buf e = (TRet s' Panic, b)) \/ try_encode E' fuel s off buf e = try_encode E fuel s off buf e.
  Proof.
    intros. unfold try_encode. rewrite (ea_idle A). destruct (enc_idle E s); auto. destruct (slice_from off buf); [|left; eauto].
    destruct (ea_encode A fuel s l e) as [P|P].
    - left. destruct (enc_encode E fuel s l e) as [[s' b'] r]. cbn in P. subst. eauto.
    - rewrite P. destruct (enc_encode E fuel s l e) as [[s' b'] [n|k| |]]; auto. rewrite (ea_idle A). auto.
  Qed.
  Lemma map_from_w : forall T (f : T -> I), eagree (map_from_encoder E f) (map_from_encoder E' f).
  Proof. intros. constructor; cbn; intros; apply A. Qed.
  Lemma try_map_from_w : forall T (f : T -> I + ErrorKind), eagree (try_map_from_encoder E f) (try_map_from_encoder E' f).
  Proof. intros. constructor; cbn; intros; try apply A. destruct (f i); auto. apply A. Qed.
  Lemma emap_err_w : forall f, eagree (map_err_encoder E f) (map_err_encoder E' f).
  Proof. intros. constructor; cbn; intros; try apply A; dd; auto. Qed.
  Lemma optional_w : eagree (optional_encoder E) (optional_encoder E').
  Proof. constructor; cbn; intros; try apply A. destruct i; auto. apply A. Qed.
  Lemma pull_w : forall fuel items s,
    (exists s' r, repeat_pull E fuel s items = PullFail s' r Panic) \/ repeat_pull E' fuel s items = repeat_pull E fuel s items.
  Proof.
    induction items as [|i items IH]; intros s; cbn; rewrite (ea_idle A); destruct (enc_idle E s); auto.
    destruct (ea_start A fuel s i) as [P|P]; [|rewrite P].
    - left. destruct (enc_start E fuel s i) as [s' r]. cbn in P. subst. cbn. eauto.
    - destruct (enc_start E fuel s i) as [s' [?|?| |]]; auto.
  Qed.
  Lemma repeat_loop_w : forall n fuel st off buf e,
    snd (repeat_loop E n fuel st off buf e) = Panic \/ repeat_loop E' n fuel st off buf e = repeat_loop E n fuel st off buf e.
  Proof.
    induction n as [|n IH]; intros; cbn [repeat_loop]; auto.
    set (items := match rp_items st with Some l => l | None => [] end).
    destruct (pull_w fuel items (rp_inner st)) as [(s' & rest & P)|P]; rewrite P; auto.
    destruct (repeat_pull E fuel (rp_inner st) items) as [s1 rest|s1|s1 rest r]; auto.
    destruct (slice_from off buf) as [b|]; auto. dd. destruct (enc_encode E fuel s1 b e) as [[s2 b2] [m|k| |]]; auto.
    destruct (m =? 0); auto.
  Qed.
  Lemma repeat_w : eagree (repeat_encoder E) (repeat_encoder E').
  Proof.
    constructor; cbn [enc_encode enc_start enc_req enc_idle repeat_encoder]; intros; auto. apply repeat_loop_w.
  Qed.
  Lemma elength_w : eagree (length_encoder E) (w_length_encoder E').
  Proof.
    constructor; cbn [enc_encode enc_start enc_req enc_idle length_encoder w_length_encoder]; intros; auto.
    - unfold length_encode, w_length_encode. destruct ((len buf <? ln_remaining s)%N && is_reached e); auto.
      set (l := if (len buf <? ln_remaining s)%N then length buf else N.to_nat (ln_remaining s)). dd.
      destruct (enc_encode E fuel _ _ _) as [[s' b'] [n|k| |]]; auto.
      destruct (u64_sub (ln_remaining s) (N.of_nat n)) as [r|] eqn:U; auto. rewrite (u64_sub_w _ _ U), (ea_idle A). auto.
    - destruct (ln_remaining s =? ln_expected s)%N; auto. dd. auto.
  Qed.
  Lemma emax_w : eagree (max_encoder E) (w_max_encoder E').
  Proof.
    constructor; cbn [enc_encode enc_start enc_req enc_idle max_encoder w_max_encoder]; intros; try apply A.
    - unfold max_encode, w_max_encode. dd.
      destruct (enc_encode E fuel _ _ _) as [[s' b'] [n|k| |]]; auto.
      destruct (u64_add (mx_consumed s) (N.of_nat n)) as [r|] eqn:U; auto. rewrite (u64_add_w _ _ U), (ea_idle A). auto.
    - dd. auto.
  Qed.
  Lemma eslice_w : eagree (slice_encoder E) (w_slice_encoder E').
  Proof.
    constructor; cbn [enc_encode enc_start enc_req enc_idle slice_encoder w_slice_encoder]; intros; try apply A.
    - unfold slice_encode, w_slice_encode. set (l := N.to_nat (N.min (len buf) (sl_consumable s))).
      destruct (eos_back e (N.of_nat (length buf - l))) as [e'|] eqn:B; auto. rewrite (eos_back_w _ _ B). dd.
      destruct (enc_encode E fuel _ _ e') as [[s' b'] [n|k| |]]; auto.
      destruct (u64_sub (sl_consumable s) (N.of_nat n)) eqn:U; auto. rewrite (u64_sub_w _ _ U). auto.
    - dd. auto.
  Qed.
  Lemma last_w : eagree (last_encoder E) (last_encoder E').
  Proof.
    constructor; cbn [enc_encode enc_start enc_req enc_idle last_encoder]; intros; auto.
    - unfold last_encode. rewrite (ea_idle A).
      assert (R : forall s0 (it : option I),
        snd (let '(s', buf', r) := enc_encode E fuel s0 buf e in (mkLast s' it, buf', r)) = Panic \/
        (let '(s', buf', r) := enc_encode E' fuel s0 buf e in (mkLast s' it, buf', r)) =
        (let '(s', buf', r) := enc_encode E fuel s0 buf e in (mkLast s' it, buf', r))) by (intros; dd; auto).
      destruct (enc_idle E (la_inner s)); auto. destruct (la_item s) as [i|]; auto.
      dd. destruct (enc_start E fuel (la_inner s) i) as [s' [?|?| |]]; auto.
    - destruct (la_item s); auto. apply A.
    - destruct (la_item s); auto. apply A.
  Qed.
  Lemma all_w : forall fuel ifuel s buf w,
    snd (encode_all_loop E fuel ifuel s buf w) = Panic \/ encode_all_loop E' fuel ifuel s buf w = encode_all_loop E fuel ifuel s buf w.
  Proof.
    induction fuel as [|fuel IH]; intros; cbn [encode_all_loop]; rewrite (ea_idle A); destruct (enc_idle E s); auto.
    dd. destruct (enc_encode E ifuel s buf (eos_new false)) as [[s' b'] [n|k| |]]; auto.
    destruct (n <=? length b'); auto. destruct (wr_write_all w (firstn n b')) as [w' [?|?| |]]; auto. rewrite (ea_idle A).
    destruct (negb (enc_idle E s') && (n =? 0)); auto.
  Qed.
  Lemma into_bytes_w : forall fuel s i,
    snd (encode_into_bytes E fuel s i) = Panic \/ encode_into_bytes E' fuel s i = encode_into_bytes E fuel s i.
  Proof.
    intros. unfold encode_into_bytes. dd. destruct (enc_start E fuel s i) as [s1 [?|?| |]]; auto.
    destruct (ea_req A s1) as [-> | ->]; auto. destruct (enc_req E s1) as [[z| |]|?| |]; auto.
    - destruct (z <=? isize_max)%N; auto. dd. destruct (enc_encode E fuel s1 _ _) as [[s2 b] [?|?| |]]; auto. now rewrite (ea_idle A); auto.
    - unfold encode_all. destruct (all_w fuel fuel s1 (repeat x00 io_buf_size) (mkWriter [] [])) as [P| ->]; auto.
      left. destruct (encode_all_loop E fuel fuel s1 (repeat x00 io_buf_size) (mkWriter [] [])) as [[? ?] r]. cbn in P. subst. reflexivity.
  Qed.
  Lemma pre_w : eagree (pre_encoder E) (pre_encoder E').
  Proof.
    constructor; cbn [enc_encode enc_start enc_req enc_idle pre_encoder]; intros; auto.
    unfold pre_start. destruct (into_bytes_w fuel (pre_inner s) i) as [P| ->]; auto.
    left. destruct (encode_into_bytes E fuel (pre_inner s) i) as [? r]. cbn in P. subst. reflexivity.
  Qed.
End Enc.
Record epagree {S I} (P P' : EncParts S I) : Prop := {
  epa_encode : forall fuel s off buf e,
    (exists s' b, ep_encode P fuel s off buf e = (TRet s' Panic, b)) \/ ep_encode P' fuel s off buf e = ep_encode P fuel s off buf e;
  epa_start : forall fuel s i, snd (ep_start P fuel s i) = Panic \/ ep_start P' fuel s i = ep_start P fuel s i;
  epa_req : forall acc s, ep_req P acc s = Panic \/ ep_req P' acc s = ep_req P acc s;
  epa_idle : forall s, ep_idle P' s = ep_idle P s }.
Lemma eparts_one_w : forall S I (E E' : Encoder S I), eagree E E' -> epagree (ep_one E) (w_ep_one E').
Proof.
  intros S I E E' A. constructor; cbn [ep_encode ep_start ep_req ep_idle ep_one w_ep_one]; intros; try apply A.
  - now apply etry_w.
  - destruct (ea_req A s) as [-> | ->]; auto. destruct (enc_req E s) as [q|k| |]; cbn; auto.
    destruct (add_enc_w acc q) as [-> | ->]; auto.
Qed.
Lemma eparts_snoc_w : forall S T I J (P P' : EncParts S I) (E E' : Encoder T J),
  epagree P P' -> eagree E E' -> epagree (ep_snoc P E) (w_ep_snoc P' E').
Proof.
  intros S T I J P P' E E' A B. constructor; cbn [ep_encode ep_start ep_req ep_idle ep_snoc w_ep_snoc]; intros.
  - destruct (epa_encode A fuel (fst s) off buf e) as [(s' & b & X)|X]; rewrite X; [left; eauto|].
    destruct (ep_encode P fuel (fst s) off buf e) as [[s0 o|s0 r] b]; auto.
    destruct (etry_w B fuel (snd s) o b e) as [(s' & b' & Y)|Y]; rewrite Y; [left; eauto|auto].
  - destruct (epa_start A fuel (fst s) (fst i)) as [X|X]; [|rewrite X].
    + left. destruct (ep_start P fuel (fst s) (fst i)) as [? r]. cbn in X. subst. reflexivity.
    + destruct (ep_start P fuel (fst s) (fst i)) as [s0 [u|k| |]]; auto.
      destruct (ea_start B fuel (snd s) (snd i)) as [Y|Y]; [|rewrite Y; auto].
      left. destruct (enc_start E fuel (snd s) (snd i)) as [? r]. cbn in Y. subst. reflexivity.
  - destruct (epa_req A acc (fst s)) as [-> | ->]; auto. destruct (ep_req P acc (fst s)) as [q|k| |]; cbn; auto.
    destruct (ea_req B (snd s)) as [-> | ->]; auto. destruct (enc_req E (snd s)) as [q'|k| |]; cbn; auto.
    destruct (add_enc_w q q') as [-> | ->]; auto.
  - now rewrite (epa_idle A), (ea_idle B).
Qed.
Lemma etuple_w : forall S I (P P' : EncParts S I), epagree P P' -> eagree (tuple_of_enc_parts P) (tuple_of_enc_parts P').
Proof.
  intros S I P P' A. constructor; cbn; intros; try apply A.
  destruct (epa_encode A fuel s 0 buf e) as [(s' & b & X)|X]; rewrite X; auto.
Qed.
Scheme ebuilt_mind := Induction for ebuilt Sort Prop with ebuilt_parts_mind := Induction for ebuilt_parts Sort Prop.
Theorem ebuilt_agree : forall S I (E E' : Encoder S I), ebuilt E E' -> eagree E E'.
Proof.
  apply (ebuilt_mind (fun S I E E' _ => eagree E E') (fun S I P P' _ => epagree P P')); intros.
  - apply eagree_refl.
  - now apply map_from_w.
  - now apply try_map_from_w.
  - now apply emap_err_w.
  - now apply optional_w.
  - now apply repeat_w.
  - now apply elength_w.
  - now apply emax_w.
  - now apply pre_w.
  - now apply eslice_w.
  - now apply last_w.
  - now apply etuple_w.
  - now apply eparts_one_w.
  - now apply eparts_snoc_w.
Qed.
