(** * C69: a decoder after it has rejected an item.  C70: an encoder after it has rejected an item. *)
From Coq Require Import Lia ZifyBool ZifyNat ZifyN.
From Verif Require Import Universe UniverseProofs Drive Session CodecProofs Examples Observe Props_Codec Props_Trunc Props_Guard.
Set Implicit Arguments.

(** ** C69: what the theorems say *)

(** Checks: an item is accepted (and perhaps changed) or rejected with an error. *)
Definition check (A B : Type) := A -> B + ErrorKind.
Definition then_check {A B C} (f : check A B) (g : check B C) : check A C :=
  fun a => match f a with inl b => g b | inr k => inr k end.
Definition utf8_check : check (list byte) (list N) :=
  fun b => match str_from_utf8 b with Some s => inl s | None => inr InvalidInput end.
Definition outcome {B} (x : B + ErrorKind) : res B := match x with inl b => Ok b | inr k => Err k end.

(** [checked c D f]: [D] is the decoder of the term [c] with checks put in at some places: [try_map] and
    [Utf8Decoder] around it or inside of [map], [try_map], [map_err], [omit], [length], [max_bytes],
    [maybe_eos], or around the last component of a tuple, or around what follows a length prefix or a flag
    ([and_then]).  [f] is what all of these checks together do to an
    item. *)
Inductive checked : forall (A : Type) (c : codec A) (B : Type), Decoder (DS (sem c)) B -> check A B -> Prop :=
| ck_plain : forall A (c : codec A), checked c (decoder c) inl
| ck_try_map : forall A (c : codec A) B T (D : Decoder _ B) f (g : check B T),
    checked c D f -> checked c (try_map_decoder D g) (then_check f g)
| ck_utf8 : forall A (c : codec A) (D : Decoder _ (list byte)) f,
    checked c D f -> checked c (utf8_decoder D) (then_check f utf8_check)
| ck_map : forall A (c : codec A) B T (D : Decoder _ B) f (g : B -> T),
    checked c D f -> checked c (map_decoder D g) (then_check f (fun b => inl (g b)))
| ck_map_err : forall A (c : codec A) B (D : Decoder _ B) f g h,
    checked c D f ->
    @checked _ (CMapErr g h c) _ (map_err_decoder D g)
      (fun a => match f a with inl b => inl b | inr k => inr (g k) end)
| ck_omit : forall A (c : codec A) B (D : Decoder _ B) f b,
    checked c D f ->
    @checked _ (COpt b c) _ (omit_decoder D)
      (fun o => match o with None => inl None | Some a => then_check f (fun b => inl (Some b)) a end)
| ck_length : forall A (c : codec A) B (D : Decoder _ B) f n,
    checked c D f -> @checked _ (CLen n c) _ (length_decoder D) f
| ck_max : forall A (c : codec A) B (D : Decoder _ B) f n,
    checked c D f -> @checked _ (CMax n c) _ (max_decoder D) f
| ck_maybe : forall A (c : codec A) B (D : Decoder _ B) f,
    checked c D f -> @checked _ (CMaybe c) _ (maybe_decoder D) f
| ck_prefixed : forall A (c : codec A) B (D : Decoder _ B) f k size,
    checked c D f ->
    @checked _ (CPrefixed k size c) _
      (and_then_decoder (udec k) (length_decoder D) (fun n => length_new (dec_fresh c) n)) f
| ck_flagged : forall A (c : codec A) B (D : Decoder _ B) f k,
    checked c D f ->
    @checked _ (CFlagged k c) _
      (and_then_decoder (udec k) (omit_decoder D) (fun n => mkOmit (dec_fresh c) (n =? 0)%N))
      (fun o => match o with None => inl None | Some a => then_check f (fun b => inl (Some b)) a end)
| ck_pair : forall A0 (c0 : codec A0) A (c : codec A) B (D : Decoder _ B) f,
    checked c D f ->
    @checked _ (CTuple (PTwo c0 c)) _ (tuple2_decoder (decoder c0) D)
      (fun x => then_check f (fun b => inl (fst x, b)) (snd x))
| ck_snoc : forall A0 (p : parts A0) A (c : codec A) B (D : Decoder _ B) f,
    checked c D f ->
    @checked _ (CTuple (PSnoc p c)) _ (tuple_of_dec_parts (dp_snoc (psem_dec (psem p)) D))
      (fun x => then_check f (fun b => inl (fst x, b)) (snd x)).

(** A caller that calls [decode_exact] [n] times and notes what it returns. *)
Fixpoint exact_outcomes {T I} (D : Decoder T I) (n fuel : nat) (s : T) (r : Reader)
    : T * Reader * list (res I) :=
  match n with
  | 0 => (s, r, [])
  | S n' =>
      let '(s1, r1, x) := decode_exact D fuel fuel s r in
      let '(s2, r2, l) := exact_outcomes D n' fuel s1 r1 in
      (s2, r2, x :: l)
  end.
(** A caller that offers buffers as the schedule says; whenever the decoder has become idle it calls
    [finish_decoding], notes the outcome and goes on, up to [n] times. *)
Fixpoint decode_outcomes {T I} (D : Decoder T I) (fuel n : nat) (s : T) (input : list byte)
    (l : list (res I)) (sched : schedule) : T * list byte * list (res I) * res unit :=
  match n, sched with
  | 0, _ => (s, input, l, Ok tt)
  | _, [] => (s, input, l, Ok tt)
  | S n', (k, h) :: sched' =>
      match dec_decode D fuel s (firstn k input) (hint_eos h (skipn k input)) with
      | (s1, Ok m) =>
          if dec_idle D s1 then
            let '(s2, x) := dec_finish D s1 in
            decode_outcomes D fuel n' s2 (skipn m input) (l ++ [x]) sched'
          else decode_outcomes D fuel n s1 (skipn m input) l sched'
      | (s1, r) => (s1, input, l, rcast r)
      end
  end.

(** ** Proofs *)
Definition same {T I} (D D' : Decoder T I) : Prop :=
  (forall fuel s buf e, dec_decode D fuel s buf e = dec_decode D' fuel s buf e) /\
  (forall s, dec_finish D s = dec_finish D' s) /\
  (forall s, dec_req D s = dec_req D' s) /\ (forall s, dec_idle D s = dec_idle D' s).

Lemma same_and_then : forall T0 I0 T1 I1 J1 (D0 : Decoder T0 I0) (D1 : Decoder T1 I1) (D1' : Decoder T1 J1) g,
  (forall fuel s buf e, dec_decode D1 fuel s buf e = dec_decode D1' fuel s buf e) ->
  (forall s, dec_idle D1 s = dec_idle D1' s) ->
  forall fuel s buf e, and_then_decode D0 D1 g fuel s buf e = and_then_decode D0 D1' g fuel s buf e.
Proof.
  intros T0 I0 T1 I1 J1 D0 D1 D1' g H1 H4 fuel s buf e. unfold and_then_decode, and_then_body.
  assert (X : forall s off, try_decode D1 fuel s off buf e = try_decode D1' fuel s off buf e).
  { intros s1 off. unfold try_decode. rewrite H4. destruct (dec_idle D1' s1); auto.
    destruct (slice_from off buf); auto. rewrite H1.
    destruct (dec_decode D1' fuel s1 l e) as [s2 []]; auto. rewrite H4. reflexivity. }
  destruct (at_inner1 s); [now rewrite X|].
  destruct (try_decode D0 fuel (at_inner0 s) 0 buf e) as [s0 off|]; auto.
  destruct (dec_finish D0 s0) as [s0' []]; auto. now rewrite X.
Qed.
Lemma checked_same : forall A (c : codec A) B (D : Decoder _ B) f,
  checked c D f -> same D (try_map_decoder (decoder c) f).
Proof.
  induction 1 as [A c|A c B T D f g _ (H1 & H2 & H3 & H4)|A c D f _ (H1 & H2 & H3 & H4)
    |A c B T D f g _ (H1 & H2 & H3 & H4)|A c B D f g h _ (H1 & H2 & H3 & H4)
    |A c B D f b _ (H1 & H2 & H3 & H4)|A c B D f n _ (H1 & H2 & H3 & H4)|A c B D f n _ (H1 & H2 & H3 & H4)
    |A c B D f _ (H1 & H2 & H3 & H4)|A c B D f k size _ (H1 & H2 & H3 & H4)|A c B D f k _ (H1 & H2 & H3 & H4)
    |A0 c0 A c B D f _ (H1 & H2 & H3 & H4)
    |A0 p A c B D f _ (H1 & H2 & H3 & H4)];
    (split; [|split; [|split]]); cbn in *.
  - reflexivity.
  - intros s. destruct (dec_finish (decoder c) s) as [s' []]; reflexivity.
  - reflexivity.
  - reflexivity.
  - exact H1.
  - intros s. rewrite H2. unfold then_check. destruct (dec_finish (decoder c) s) as [s' []]; cbn; auto.
    destruct (f a); reflexivity.
  - exact H3.
  - exact H4.
  - exact H1.
  - intros s. rewrite H2. unfold then_check, utf8_check.
    destruct (dec_finish (decoder c) s) as [s' []]; cbn; auto.
    destruct (f a); cbn; auto. destruct (str_from_utf8 l); reflexivity.
  - exact H3.
  - exact H4.
  - exact H1.
  - intros s. rewrite H2. unfold then_check. destruct (dec_finish (decoder c) s) as [s' []]; cbn; auto.
    destruct (f a); reflexivity.
  - exact H3.
  - exact H4.
  - intros. rewrite H1. reflexivity.
  - intros s. rewrite H2. cbn. fold (decoder c). destruct (dec_finish (decoder c) s) as [s' []]; cbn; auto.
    destruct (f a); reflexivity.
  - exact H3.
  - exact H4.
  - intros. rewrite H1. reflexivity.
  - intros s. rewrite H2. cbn. fold (decoder c). destruct (om_omit s); auto. unfold then_check.
    destruct (dec_finish (decoder c) (om_inner s)) as [s' []]; cbn; auto. destruct (f a); reflexivity.
  - intros s. rewrite H3. reflexivity.
  - intros s. rewrite H4. reflexivity.
  - intros. unfold length_decode. rewrite H1. reflexivity.
  - intros s. rewrite H2. cbn. fold (decoder c). destruct (ln_remaining s =? 0)%N; auto.
    destruct (dec_finish (decoder c) (ln_inner s)) as [s' []]; reflexivity.
  - reflexivity.
  - intros s. rewrite H4. reflexivity.
  - intros. unfold max_decode. rewrite H1. reflexivity.
  - intros s. rewrite H2. cbn. fold (decoder c).
    destruct (dec_finish (decoder c) (mx_inner s)) as [s' []]; reflexivity.
  - intros s. rewrite H3. reflexivity.
  - intros s. rewrite H4. reflexivity.
  - intros. unfold maybe_decode. rewrite H1. reflexivity.
  - intros s. rewrite H2. cbn. fold (decoder c).
    destruct (dec_finish (decoder c) (my_inner s)) as [s' []]; reflexivity.
  - intros s. rewrite H3. reflexivity.
  - intros s. rewrite H4. reflexivity.
  - intros. apply same_and_then; cbn; auto. intros. unfold length_decode. rewrite H1. reflexivity.
  - intros [s0 [s1|]]; cbn; auto. rewrite H2. cbn. fold (decoder c). destruct (ln_remaining s1 =? 0)%N; auto.
    destruct (dec_finish (decoder c) (ln_inner s1)) as [s' []]; reflexivity.
  - reflexivity.
  - intros [s0 [s1|]]; cbn; auto.
  - intros. apply same_and_then; cbn; auto; intros; rewrite ?H1, ?H4; reflexivity.
  - intros [s0 [s1|]]; cbn; auto. rewrite H2. cbn. fold (decoder c). destruct (om_omit s1); auto. unfold then_check.
    destruct (dec_finish (decoder c) (om_inner s1)) as [s' []]; cbn; auto. destruct (f a); reflexivity.
  - intros [s0 [s1|]]; cbn; auto. rewrite H3. reflexivity.
  - intros [s0 [s1|]]; cbn; auto. rewrite H4. reflexivity.
  - intros. unfold try_decode. fold (decoder c0) (decoder c). rewrite H4.
    destruct (dec_idle (decoder c0) (fst s)); cbn.
    + destruct (dec_idle (decoder c) (snd s)) eqn:id; auto. rewrite H1.
      destruct (dec_decode (decoder c) fuel (snd s) buf e) as [s' []]; auto. rewrite H4. reflexivity.
    + destruct (dec_decode (decoder c0) fuel (fst s) buf e) as [s' []]; auto.
      destruct (dec_idle (decoder c0) s'); auto.
      destruct (dec_idle (decoder c) (snd s)) eqn:id; auto.
      destruct (slice_from a buf); auto. rewrite H1.
      destruct (dec_decode (decoder c) fuel (snd s) l e) as [s'' []]; auto. rewrite H4. reflexivity.
  - intros s. fold (decoder c0) (decoder c). destruct (dec_finish (decoder c0) (fst s)) as [s0 []]; auto.
    rewrite H2. unfold then_check. destruct (dec_finish (decoder c) (snd s)) as [s1 []]; cbn; auto.
    destruct (f a0); reflexivity.
  - intros s. rewrite H3. reflexivity.
  - intros s. rewrite H4. reflexivity.
  - intros. unfold try_decode. fold (decoder c).
    destruct (dp_decode (psem_dec (psem p)) fuel (fst s) 0 buf e) as [s0 off|]; auto. rewrite H4.
    destruct (dec_idle (decoder c) (snd s)) eqn:id; auto.
    destruct (slice_from off buf); auto. rewrite H1.
    destruct (dec_decode (decoder c) fuel (snd s) l e) as [s'' []]; auto. rewrite H4. reflexivity.
  - intros s. fold (decoder c). destruct (dp_finish (psem_dec (psem p)) (fst s)) as [s0 []]; auto.
    rewrite H2. unfold then_check. destruct (dec_finish (decoder c) (snd s)) as [s1 []]; cbn; auto.
    destruct (f a0); reflexivity.
  - intros s. rewrite H3. reflexivity.
  - intros s. rewrite H4. reflexivity.
Qed.

Lemma same_exact : forall T I (D D' : Decoder T I), same D D' -> forall fuel ifuel s r,
  decode_exact D fuel ifuel s r = decode_exact D' fuel ifuel s r.
Proof.
  intros T I D D' (H1 & H2 & H3 & H4). induction fuel as [|fuel IH]; intros ifuel s r; auto.
  cbn [decode_exact]. rewrite H3. destruct (dec_req D' s) as [q| | |]; auto. cbn zeta.
  destruct (if exact_ask q =? 0 then (r, inl []) else rd_read r (exact_ask q)) as [r' [b|e]]; auto.
  rewrite H1. destruct (dec_decode D' ifuel s b _) as [s' [k| | |]]; auto.
  destruct (k =? length b); auto. rewrite H4. destruct (dec_idle D' s'); auto. rewrite H2. reflexivity.
Qed.
Lemma same_outcomes : forall T I (D D' : Decoder T I), same D D' -> forall fuel sched n s input l,
  decode_outcomes D fuel n s input l sched = decode_outcomes D' fuel n s input l sched.
Proof.
  intros T I D D' (H1 & H2 & H3 & H4) fuel. induction sched as [|[k h] sched IH]; intros n s input l;
    destruct n as [|n]; auto. cbn [decode_outcomes]. rewrite H1.
  destruct (dec_decode D' fuel s _ _) as [s1 [m| | |]]; auto. rewrite H4.
  destruct (dec_idle D' s1); auto. rewrite H2. destruct (dec_finish D' s1); auto.
Qed.
(** [try_map f] differs from [map f] only in how the outcome is presented. *)
Lemma exact_try_map : forall T I B (D : Decoder T I) (f : check I B) ifuel fuel s r s' r' x,
  decode_exact (map_decoder D f) fuel ifuel s r = (s', r', Ok x) ->
  decode_exact (try_map_decoder D f) fuel ifuel s r = (s', r', outcome x).
Proof.
  intros T I B D f ifuel. induction fuel as [|fuel IH]; intros s r s' r' x E; [discriminate|].
  cbn [decode_exact map_decoder try_map_decoder dec_decode dec_finish dec_req dec_idle] in *.
  destruct (dec_req D s) as [q| | |]; try discriminate. cbn zeta in *.
  destruct (if exact_ask q =? 0 then (r, inl []) else rd_read r (exact_ask q)) as [r1 [b|e]]; try discriminate.
  destruct (dec_decode D ifuel s b _) as [s1 [k| | |]]; try discriminate.
  destruct (k =? length b); try discriminate. destruct (dec_idle D s1); auto.
  destruct (dec_finish D s1) as [s2 [i| | |]]; try discriminate. cbn in *. injection E as <- <- <-.
  destruct (f i); reflexivity.
Qed.
Lemma outcomes_try_map : forall T I B (D : Decoder T I) (f : check I B) fuel sched n s input l s' rest l',
  decode_items (map_decoder D f) fuel n s input l sched = (s', rest, l', Ok tt) ->
  decode_outcomes (try_map_decoder D f) fuel n s input (map outcome l) sched
    = (s', rest, map outcome l', Ok tt).
Proof.
  intros T I B D f fuel. induction sched as [|[k h] sched IH]; intros n s input l s' rest l' E;
    destruct n as [|n]; cbn [decode_items decode_outcomes] in *;
    try (injection E as <- <- <-; reflexivity).
  cbn [map_decoder try_map_decoder dec_decode dec_finish dec_idle] in *.
  destruct (dec_decode D fuel s _ _) as [s1 [m| | |]]; try discriminate.
  destruct (dec_idle D s1); [|now apply IH].
  destruct (dec_finish D s1) as [s2 [i| | |]]; try discriminate. cbn [rmap rbind] in *.
  rewrite <- (IH _ _ _ _ _ _ _ E), map_app. cbn. destruct (f i); reflexivity.
Qed.

(** ** C69: a rejected item costs that item only

    Whatever the items, the reader and the checks: every call of [decode_exact] returns what the checks say
    about its item, and the next call starts at the next item. *)
Theorem C69_decode_exact : forall A (c : codec A) B (D : Decoder _ B) (f : check A B) ws items extra r fuel,
  checked c D f -> wf c -> delim c = SD -> dec_again c = true -> busy c = true ->
  Forall2 (reads c) ws items -> rd_data r = concat ws ++ extra -> short_reads r ->
  Forall (fun w => length w + 2 <= fuel) ws ->
  exists s r', exact_outcomes D (length items) fuel (dec_fresh c) r
                 = (s, r', map (fun a => outcome (f a)) items) /\
               rd_data r' = extra.
Proof.
  intros A c B D f ws items extra r fuel CK WF M AG Bu HF RD SR FU.
  pose proof (checked_same CK) as SM.
  pose proof (proj1 term_dec_ok A c WF) as DO. unfold code_dec_ok in DO. rewrite AG, M, Bu in DO.
  destruct (dec_ok_again DO) as (P & HD & H0 & HB). specialize (HB (or_introl eq_refl)).
  revert H0. generalize (dec_fresh c). revert r RD SR FU.
  induction HF as [|w a ws items R HF IH]; intros r RD SR FU s H0; cbn [length exact_outcomes concat map] in *.
  - exists s, r. auto.
  - inversion FU; subst.
    assert (G : Forall gives (rd_plan r)).
    { eapply Forall_impl; [|exact SR]. intros p (n & ->). exact Logic.I. }
    rewrite <- app_assoc in RD.
    assert (PM : parses (map_decoder (decoder c) f) SD P s w (f a)).
    { apply map_parses. auto. }
    destruct (@decode_exact_ok _ _ (map_decoder (decoder c) f) SD P fuel fuel s w (concat ws ++ extra) (f a) r PM
                (HB _ H0) ltac:(congruence) RD G ltac:(lia) ltac:(lia)) as (s1 & r1 & X1 & P1 & RD1).
    rewrite (same_exact SM), (exact_try_map _ _ _ _ _ _ X1).
    assert (SR1 : short_reads r1).
    { destruct (@C38_failing_read _ _ _ _ _ _ _ _ _ _ X1) as (used & PL & _). unfold short_reads in *.
      rewrite PL, Forall_app in SR. tauto. }
    destruct (IH r1 RD1 SR1 H3 s1 P1) as (s2 & r2 & X2 & RD2). rewrite X2. eauto.
Qed.
Print Assumptions C69_decode_exact.
(** The same for a caller that offers buffers of any sizes. *)
Theorem C69_any_buffers : forall A (c : codec A) B (D : Decoder _ B) (f : check A B) ws items extra sched fuel,
  checked c D f -> wf c -> delim c = SD -> dec_again c = true -> busy c = true ->
  Forall2 (reads c) ws items ->
  (len (concat ws ++ extra) <= u64_max)%N -> length (concat ws ++ extra) < fuel ->
  exists k s consumed rest,
    (* whatever the schedule, all calls of [decode] succeed and the first [k] outcomes are those of the items *)
    decode_outcomes D fuel (length items) (dec_fresh c) (concat ws ++ extra) [] sched
      = (s, rest, map (fun a => outcome (f a)) (firstn k items), Ok tt) /\
    k <= length items /\
    (* what was consumed is the bytes of these items and a part of the next *)
    concat ws ++ extra = consumed ++ rest /\
    length (concat (firstn k ws)) <= length consumed <= length (concat (firstn (k + 1) ws)) /\
    (* with enough calls, all of them *)
    (length (concat ws) + length items <= pushes sched -> k = length items /\ rest = extra).
Proof.
  intros A c B D f ws items extra sched fuel CK WF M AG Bu HF L F.
  pose proof (checked_same CK) as SM.
  pose proof (proj1 term_dec_ok A c WF) as DO. unfold code_dec_ok in DO. rewrite AG, M, Bu in DO.
  destruct (dec_ok_again DO) as (P & HD & H0 & HB). specialize (HB (or_introl eq_refl)).
  rewrite (same_outcomes SM).
  destruct HF as [|w a ws items R HF].
  - exists 0, (dec_fresh c), [], extra. cbn. split; [destruct sched; auto|]. repeat split; auto.
  - cbn [concat] in *. rewrite <- app_assoc in *.
    set (fmt := fun w (x : B + ErrorKind) => exists a, reads c w a /\ x = f a).
    assert (HD' : decodes (map_decoder (decoder c) f) SD fmt P P).
    { intros s w' x p (a' & R' & ->). apply map_parses. auto. }
    assert (HF' : Forall2 fmt ws (map f items)).
    { clear - HF. induction HF; cbn; constructor; unfold fmt; eauto. }
    destruct (@decode_items_ok _ _ (map_decoder (decoder c) f) fmt P fuel HD' HB sched (dec_fresh c) w (f a) ws
                (map f items) extra [] (HD' _ _ _ H0 (ex_intro _ a (conj R eq_refl))) (HB _ H0) HF' L F)
      as (k & s & co & rest & X1 & X2 & X3 & X4 & X5).
    cbn [app] in X1. change (f a :: map f items) with (map f (a :: items)) in *.
    rewrite map_length in *.
    exists k, s, co, rest. split.
    { apply outcomes_try_map in X1. change (map outcome (@nil (B + ErrorKind))) with (@nil (res B)) in X1. rewrite X1. rewrite firstn_map, map_map. reflexivity. }
    split; auto. split; auto. split; auto. intros HP. destruct (X5 HP) as (? & ? & _); auto.
Qed.
Print Assumptions C69_any_buffers.

(** [peekable] takes the item inside of [decode], so the rejection comes from [decode]; with
    [decode_exact] the outcome is the same. *)
Lemma same_peek : forall T I (D D' : Decoder T I), same D D' -> same (peek_decoder D) (peek_decoder D').
Proof.
  intros T I D D' (H1 & H2 & H3 & H4). split; [|split; [|split]]; cbn; auto.
  - intros. unfold peek_decode. rewrite H1. destruct (pk_item s); auto.
    destruct (dec_decode D' fuel (pk_inner s) buf e) as [s' []]; auto. rewrite H4.
    destruct (dec_idle D' s'); auto. rewrite H2. reflexivity.
  - intros s. rewrite H3. reflexivity.
Qed.
Lemma exact_peek : forall T I B (D : Decoder T I) (f : check I B) ifuel fuel s r s' r' x,
  decode_exact (map_decoder D f) fuel ifuel s r = (s', r', Ok x) ->
  decode_exact (peek_decoder (try_map_decoder D f)) fuel ifuel (peek_new s) r = (peek_new s', r', outcome x).
Proof.
  intros T I B D f ifuel. induction fuel as [|fuel IH]; intros s r s' r' x E; [discriminate|].
  cbn [decode_exact map_decoder try_map_decoder peek_decoder peek_new peek_decode pk_item pk_inner
       dec_decode dec_finish dec_req dec_idle] in *.
  destruct (dec_req D s) as [q| | |]; try discriminate. cbn zeta in *.
  destruct (if exact_ask q =? 0 then (r, inl []) else rd_read r (exact_ask q)) as [r1 [b|e]]; try discriminate.
  destruct (dec_decode D ifuel s b _) as [s1 [k| | |]]; try discriminate.
  destruct (k =? length b) eqn:K; try discriminate. destruct (dec_idle D s1) eqn:id.
  - destruct (dec_finish D s1) as [s2 [i| | |]]; try discriminate. cbn in *. injection E as <- <- <-.
    destruct (f i); cbn; rewrite ?K; reflexivity.
  - rewrite K. cbn. now apply IH.
Qed.
Theorem C69_peekable : forall A (c : codec A) B (D : Decoder _ B) (f : check A B) ws items extra r fuel,
  checked c D f -> wf c -> delim c = SD -> dec_again c = true -> busy c = true ->
  Forall2 (reads c) ws items -> rd_data r = concat ws ++ extra -> short_reads r ->
  Forall (fun w => length w + 2 <= fuel) ws ->
  exists s r', exact_outcomes (peek_decoder D) (length items) fuel (peek_new (dec_fresh c)) r
                 = (s, r', map (fun a => outcome (f a)) items) /\
               rd_data r' = extra.
Proof.
  intros A c B D f ws items extra r fuel CK WF M AG Bu HF RD SR FU.
  pose proof (same_peek (checked_same CK)) as SM.
  pose proof (proj1 term_dec_ok A c WF) as DO. unfold code_dec_ok in DO. rewrite AG, M, Bu in DO.
  destruct (dec_ok_again DO) as (P & HD & H0 & HB). specialize (HB (or_introl eq_refl)).
  revert H0. generalize (dec_fresh c). revert r RD SR FU.
  induction HF as [|w a ws items R HF IH]; intros r RD SR FU s H0; cbn [length exact_outcomes concat map] in *.
  - exists (peek_new s), r. auto.
  - inversion FU; subst.
    assert (G : Forall gives (rd_plan r)).
    { eapply Forall_impl; [|exact SR]. intros p (n & ->). exact Logic.I. }
    rewrite <- app_assoc in RD.
    assert (PM : parses (map_decoder (decoder c) f) SD P s w (f a)).
    { apply map_parses. auto. }
    destruct (@decode_exact_ok _ _ (map_decoder (decoder c) f) SD P fuel fuel s w (concat ws ++ extra) (f a) r PM
                (HB _ H0) ltac:(congruence) RD G ltac:(lia) ltac:(lia)) as (s1 & r1 & X1 & P1 & RD1).
    rewrite (same_exact SM), (exact_peek _ _ _ _ _ _ X1).
    assert (SR1 : short_reads r1).
    { destruct (@C38_failing_read _ _ _ _ _ _ _ _ _ _ X1) as (used & PL & _). unfold short_reads in *.
      rewrite PL, Forall_app in SR. tauto. }
    destruct (IH r1 RD1 SR1 H3 s1 P1) as (s2 & r2 & X2 & RD2). rewrite X2. eauto.
Qed.
Print Assumptions C69_peekable.

(** A record of a tag and a number of two bytes that must not be zero, and the tag must not be 9. *)
Definition not_zero : check N N := fun n => if (n =? 0)%N then inr InvalidInput else inl n.
Definition ex_record : codec (N * N) := CTuple (PTwo (CU NU8) (CLen 2 (CU NU16be))).
Definition ex_record_decoder : Decoder (DS (sem ex_record)) (N * N) :=
  try_map_decoder
    (tuple2_decoder (decoder (CU NU8)) (length_decoder (try_map_decoder (decoder (CU NU16be)) not_zero)))
    (fun x => if (fst x =? 9)%N then inr Other else inl x).
Example C69_example :
  let ws := [[x01; x00; x05]; [x02; x00; x00]; [x09; x00; x07]; [x03; x01; x00]] in
  let items := [(1, 5); (2, 0); (9, 7); (3, 256)]%N in
  exists f, checked ex_record ex_record_decoder f /\
    wf ex_record /\ delim ex_record = SD /\ dec_again ex_record = true /\ busy ex_record = true /\
    Forall2 (reads ex_record) ws items /\
    map (fun a => outcome (f a)) items = [Ok (1, 5); Err InvalidInput; Err Other; Ok (3, 256)]%N.
Proof.
  cbv zeta. eexists. split.
  { apply ck_try_map. apply ck_pair with (c0 := CU NU8). apply ck_length with (c := CU NU16be).
    apply ck_try_map, ck_plain. }
  split; [cbn; repeat split|]. do 3 (split; [reflexivity|]). split; [|reflexivity].
  repeat (apply Forall2_cons; [|]); try apply Forall2_nil;
    (split; [discriminate|]; eexists [_], [_; _]; split; [reflexivity|]; repeat split; reflexivity).
Qed.
(** Strings with a length byte: "ab", one that is not UTF-8, "c". *)
Example C69_prefixed_example :
  let c := CPrefixed NU8 (fun l : list byte => len l) CRest in
  let D := and_then_decoder U8Decoder (length_decoder (utf8_decoder rem_decoder))
             (fun n => length_new rem_dec_new n) in
  let ws := [[x02; x61; x62]; [x01; xff]; [x01; x63]] in
  let items := [[x61; x62]; [xff]; [x63]] in
  exists f, checked c D f /\ wf c /\ delim c = SD /\ dec_again c = true /\ busy c = true /\
    Forall2 (reads c) ws items /\
    map (fun a => outcome (f a)) items = [Ok [97; 98]; Err InvalidInput; Ok [99]]%N.
Proof.
  cbv zeta. eexists. split.
  { apply ck_prefixed with (c := CRest) (k := NU8). apply ck_utf8, ck_plain. }
  split; [cbn; repeat split|]. do 3 (split; [reflexivity|]). split; [|reflexivity].
  repeat (apply Forall2_cons; [|]); try apply Forall2_nil;
    (split; [discriminate|]; eexists [_], _; split; [reflexivity|]; repeat split; auto; discriminate).
Qed.

(** ** C69 fails elsewhere *)

(** A tuple with a check on a component that is not the last: the components after it keep their items.
    The messages are (1, 2), (0, 4), (5, 6); the caller sees (1, 2), an error and then (5, 4): an item
    made of two different messages. *)
Theorem C69_tuple_refuted :
  let D := tuple2_decoder (try_map_decoder U8Decoder not_zero) U8Decoder in
  let r := mkReader [x01; x02; x00; x04; x05; x06] [] in
  snd (exact_outcomes D 3 9 (num_dec_new 1, num_dec_new 1) r)
    = [Ok (1, 2); Err InvalidInput; Ok (5, 4)]%N.
Proof. reflexivity. Qed.
Print Assumptions C69_tuple_refuted.
(** [collectn] (and [collect]) keeps the items before the rejected one: of 3, 0, 5, 6 the second is rejected and
    the next call returns the pair (3, 5). *)
Theorem C69_collectn_refuted :
  let D := collectn_decoder (try_map_decoder U8Decoder not_zero) in
  let r := mkReader [x03; x00; x05; x06] [] in
  snd (exact_outcomes D 2 9 (collectn_new (num_dec_new 1) 2) r) = [Err InvalidInput; Ok [3; 5]]%N.
Proof. reflexivity. Qed.
Print Assumptions C69_collectn_refuted.

(** ** C70: an encoder that refuses an item *)

(** [open E]: an idle [E] takes every item.  [firm any E]: the encoders whose refusals are claimed to leave no
    trace; with [any] in every state, otherwise when idle. *)
Inductive open : forall T I, Encoder T I -> Prop :=
| op_bytes : forall B (BX : ByteBox B), open (bytes_encoder BX)
| op_num : forall I (f : I -> list byte), open (num_encoder (total_item f))
| op_null : open null_encoder
| op_pad : open pad_encoder
| op_mono : forall I (f : MonoEncode I), open (mono_encoder f)
| op_map_from : forall T I J (E : Encoder T I) (f : J -> I), open E -> open (map_from_encoder E f)
| op_map_err : forall T I (E : Encoder T I) f, open E -> open (map_err_encoder E f)
| op_optional : forall T I (E : Encoder T I), open E -> open (optional_encoder E)
| op_repeat : forall T I (E : Encoder T I), open (repeat_encoder E)
| op_max : forall T I (E : Encoder T I), open E -> open (max_encoder E)
| op_slice : forall T I (E : Encoder T I), open E -> open (slice_encoder E)
| op_pair : forall T I T' I' (E : Encoder T I) (E' : Encoder T' I'),
    open E -> open E' -> open (tuple2_encoder E E')
| op_snoc : forall T I T' I' (P : EncParts T I) (E' : Encoder T' I'),
    open (tuple_of_enc_parts P) -> open E' -> open (tuple_of_enc_parts (ep_snoc P E')).
Inductive firm : bool -> forall T I, Encoder T I -> Prop :=
| fi_bytes : forall B (BX : ByteBox B), firm true (bytes_encoder BX)
| fi_num : forall I (f : I -> list byte + ErrorKind), firm true (num_encoder f)
| fi_null : firm true null_encoder
| fi_pad : firm true pad_encoder
| fi_mono : forall I (f : MonoEncode I), firm true (mono_encoder f)
| fi_map_from : forall b T I J (E : Encoder T I) (f : J -> I), firm b E -> firm b (map_from_encoder E f)
| fi_try_map_from : forall b T I J (E : Encoder T I) (f : J -> I + ErrorKind),
    firm b E -> firm b (try_map_from_encoder E f)
| fi_map_err : forall b T I (E : Encoder T I) f, firm b E -> firm b (map_err_encoder E f)
| fi_optional : forall b T I (E : Encoder T I), firm b E -> firm b (optional_encoder E)
| fi_repeat : forall T I (E : Encoder T I), firm true (repeat_encoder E)
| fi_length : forall T I (E : Encoder T I), firm true E -> firm true (length_encoder E)
| fi_max : forall b T I (E : Encoder T I), firm b E -> firm b (max_encoder E)
| fi_slice : forall b T I (E : Encoder T I), firm b E -> firm b (slice_encoder E)
| fi_last : forall T I (E : Encoder T I), firm true (last_encoder E)
| fi_pair : forall b T I T' I' (E : Encoder T I) (E' : Encoder T' I'),
    firm b E -> open E' -> firm false (tuple2_encoder E E')
| fi_snoc : forall b T I T' I' (P : EncParts T I) (E' : Encoder T' I'),
    firm b (tuple_of_enc_parts P) -> open E' -> firm false (tuple_of_enc_parts (ep_snoc P E')).

Lemma open_ok : forall T I (E : Encoder T I), open E -> forall fuel s i, enc_idle E s = true ->
  exists s', enc_start E fuel s i = (s', Ok tt).
Proof.
  induction 1; intros fuel s i id; cbn in *.
  - unfold bytes_start. rewrite id. eauto.
  - unfold bytes_start. rewrite id. eauto.
  - eauto.
  - destruct s; [discriminate|]. eauto.
  - rewrite id. eauto.
  - auto.
  - destruct (IHopen fuel s i id) as (s' & ->). cbn. eauto.
  - destruct i; auto. eauto.
  - rewrite id. eauto.
  - destruct (IHopen fuel _ i id) as (s' & ->). eauto.
  - destruct (IHopen fuel _ i id) as (s' & ->). eauto.
  - apply andb_prop in id as [id id']. destruct (IHopen1 fuel _ (fst i) id) as (s' & ->).
    destruct (IHopen2 fuel _ (snd i) id') as (s'' & ->). eauto.
  - apply andb_prop in id as [id id']. destruct (IHopen1 fuel _ (fst i) id) as (s' & ->).
    destruct (IHopen2 fuel _ (snd i) id') as (s'' & ->). eauto.
Qed.
Lemma firm_ok : forall b T I (E : Encoder T I), firm b E -> forall fuel s i s' k,
  b = true \/ enc_idle E s = true -> enc_start E fuel s i = (s', Err k) -> s' = s.
Proof.
  induction 1; intros fuel s i s' k id X; cbn in *.
  - unfold bytes_start in X. destruct (bytes_enc_idle s); congruence.
  - destruct (f i); [|congruence]. unfold bytes_start in X. destruct (bytes_enc_idle s); congruence.
  - congruence.
  - destruct s; congruence.
  - destruct (mono_enc_idle s); congruence.
  - eauto.
  - destruct (f i); [eauto|congruence].
  - destruct (enc_start E fuel s i) as [s1 [u|k'| |]] eqn:Y; try discriminate X.
    injection X as <- _. eauto.
  - destruct i; [eauto|discriminate X].
  - destruct (repeat_idle s); congruence.
  - destruct (ln_remaining s =? ln_expected s)%N eqn:R; [|congruence].
    destruct (enc_start E fuel (ln_inner s) i) as [s1 r] eqn:Y. injection X as <- ->.
    rewrite (IHfirm _ _ _ _ _ (or_introl eq_refl) Y). apply N.eqb_eq in R.
    destruct s as [a b c]; cbn in *; congruence.
  - destruct (enc_start E fuel (mx_inner s) i) as [s1 r] eqn:Y. injection X as <- ->.
    rewrite (IHfirm _ _ _ _ _ id Y). now destruct s.
  - destruct (enc_start E fuel (sl_inner s) i) as [s1 r] eqn:Y. injection X as <- ->.
    rewrite (IHfirm _ _ _ _ _ id Y). now destruct s.
  - destruct i.
  - destruct id as [id|id]; [discriminate|]. apply andb_prop in id as [id id'].
    destruct (enc_start E fuel (fst s) (fst i)) as [s0 r] eqn:Y. destruct r as [u|k'| |]; try discriminate X.
    + destruct (open_ok H0 fuel _ (snd i) id') as (s1 & Z). rewrite Z in X. discriminate X.
    + injection X as <- _. rewrite (IHfirm _ _ _ _ _ (or_intror id) Y). now destruct s.
  - destruct id as [id|id]; [discriminate|]. apply andb_prop in id as [id id'].
    destruct (ep_start P fuel (fst s) (fst i)) as [s0 r] eqn:Y. destruct r as [u|k'| |]; try discriminate X.
    + destruct (open_ok H0 fuel _ (snd i) id') as (s1 & Z). rewrite Z in X. discriminate X.
    + injection X as <- _. rewrite (IHfirm _ _ _ _ _ (or_intror id) Y). now destruct s.
Qed.

(** A refused item leaves no trace: every later call, whatever it is, returns what it would have returned
    if the item had not been offered. *)
Theorem C70_refused_item : forall any T I (E : Encoder T I) fuel s i k s' ops,
  firm any E -> any = true \/ enc_idle E s = true ->
  enc_start E fuel s i = (s', Err k) ->
  enc_trace E s (OpStart fuel i :: ops) = ObStart (Err k) :: enc_trace E s ops.
Proof.
  intros any T I E fuel s i k s' ops H id X. cbn [enc_trace enc_do]. rewrite X.
  rewrite (firm_ok H fuel s i id X). reflexivity.
Qed.
Print Assumptions C70_refused_item.
(** A tuple of a range-checked number and a string: 2^24 is refused. *)
Example C70_example :
  let E := map_err_encoder (tuple2_encoder U24beEncoder (bytes_encoder vec_box)) (fun _ => Other) in
  firm false E /\ enc_idle E (num_enc_new, bytes_enc_new) = true /\
  (exists s', enc_start E 9 (num_enc_new, bytes_enc_new) (16777216%N, [x61]) = (s', Err Other)) /\
  enc_trace E (num_enc_new, bytes_enc_new)
    [OpStart 9 (16777216%N, [x61]); OpStart 9 (258%N, [x62]); OpEncode 9 (repeat x00 5) Unknown]
    = [ObStart (Err Other); ObStart (Ok tt); ObEncode [x00; x01; x02; x62; x00] (Ok 4)].
Proof.
  split; [|split; [reflexivity|split; [eexists; reflexivity|reflexivity]]].
  apply fi_map_err. apply fi_pair with (b := true); [apply fi_num|apply op_bytes].
Qed.

(** ** C70 fails elsewhere *)

(** A tuple whose second component refuses: the first component keeps its half of the refused item.  The
    encoder is not idle, the next item is refused although it is valid, and what is written is not the
    encoding of any item. *)
Theorem C70_tuple_refuted :
  let E := tuple2_encoder U8Encoder U24beEncoder in
  let s := (num_enc_new, num_enc_new) in
  enc_idle E s = true /\
  enc_trace E s [OpStart 9 (7, 16777216)%N; OpEIdle; OpStart 9 (1, 2)%N; OpEncode 9 (repeat x00 5) Unknown; OpEIdle]
    = [ObStart (Err InvalidInput); ObEIdle false; ObStart (Err EncoderFull);
       ObEncode [x07; x00; x00; x00; x00] (Ok 1); ObEIdle true].
Proof. split; reflexivity. Qed.
Print Assumptions C70_tuple_refuted.
(** [pre_encode] over [length]: after one item of the wrong length no item is ever accepted again. *)
Lemma wedged : forall n (s : Length (BytesEnc (list byte))) i fuel,
  ln_remaining s <> ln_expected s ->
  exists s', enc_start (pre_encoder (length_encoder (bytes_encoder vec_box))) fuel (mkPre s n) i
             = (mkPre s' n, Err EncoderFull) /\ s' = s.
Proof.
  intros n s i fuel R. cbn. unfold pre_start, encode_into_bytes. cbn.
  destruct (ln_remaining s =? ln_expected s)%N eqn:Q; [apply N.eqb_eq in Q; contradiction|].
  cbn. eauto.
Qed.
Theorem C70_pre_encode_refuted :
  let E := pre_encoder (length_encoder (bytes_encoder vec_box)) in
  let s := pre_new (length_new bytes_enc_new 3) in
  exists s', enc_start E 2000 s [x61; x62] = (s', Err InvalidInput) /\ enc_idle E s' = true /\
  (exists s'', enc_start E 2000 s [x61; x62; x63] = (s'', Ok tt)) /\
  forall items, enc_trace E s' (map (OpStart 2000) items) = map (fun _ => ObStart (Err EncoderFull)) items.
Proof.
  cbv zeta. eexists. split; [vm_compute; reflexivity|]. split; [reflexivity|].
  split; [eexists; vm_compute; reflexivity|].
  induction items as [|i items IH]; auto. cbn [map enc_trace enc_do].
  match goal with |- context [enc_start _ _ (mkPre ?a ?b)] =>
    destruct (@wedged b a i 2000) as (s' & -> & ->); [discriminate|] end.
  f_equal. exact IH.
Qed.
Print Assumptions C70_pre_encode_refuted.
