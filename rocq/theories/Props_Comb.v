(** * Theorems about single decoder combinators over arbitrary parts:
      C13, C16, C20, C21, C22, C23, C27, C28, C29, C30.

    A part is any decoder that meets the contract [parses]/[decodes] of [Spec] (or any decoder at all,
    where the statement allows it); conclusions are in the terms of [Observe]. *)
From Coq Require Import Lia ZifyBool ZifyNat ZifyN.
From Verif Require Import ObserveProofs.
Set Implicit Arguments.

(** Parts used in the examples: two bytes taken as they are, and the rest of the stream. *)
Definition ex_two := copy_decoder vec_box.
Definition ex_two_new : CopyDec (list byte) := copy_dec_new [x00; x00].
Definition ex_two_ready := copy_ready vec_box [x00; x00].
Lemma ex_two_decodes : decodes ex_two SD (fun w i => length w = 2 /\ i = w) ex_two_ready ex_two_ready.
Proof.
  intros s w i P (L & ->). apply (@copy_decodes _ vec_box vec_box_ok [x00; x00]); auto.
  - discriminate.
  - split; auto.
Qed.
Lemma ex_two_is_ready : ex_two_ready ex_two_new.
Proof. split; auto. exists [x00; x00]. auto. Qed.
Lemma ex_two_parses : forall a b, parses ex_two SD ex_two_ready ex_two_new [a; b] [a; b].
Proof. intros a b. apply ex_two_decodes; [apply ex_two_is_ready|auto]. Qed.
Lemma ex_rest_parses : parses rem_decoder ToEos rem_ready rem_dec_new [xaa; xbb; xcc] [xaa; xbb; xcc].
Proof. apply rem_decodes; [reflexivity|]. split; [reflexivity|discriminate]. Qed.

(** ** C13: length(n) *)

(** Whatever the inner decoder's own way to find the end ([m]), under [length(n)] it becomes
    self-delimiting, on exactly [n] bytes, and ready for the next [n] bytes. *)
Theorem C13_length_delimits : forall S I (D : Decoder S I) m (Post : S -> Prop) s w i,
  parses D m Post s w i ->
  delivers (length_decoder D) SD (length_new s (len w)) w i
    (fun st => exists s', st = length_new s' (len w) /\ Post s').
Proof.
  intros S I D m Post s w i H. apply parses_delivers.
  eapply parses_post; [|eapply length_parses; exact H].
  intros [s' x r] (A & B & C). cbn in *. subst. exists s'. auto.
Qed.
Print Assumptions C13_length_delimits.
Example C13_example : exists i,
  parses rem_decoder ToEos rem_ready rem_dec_new [xaa; xbb; xcc] i.
Proof. eexists; apply ex_rest_parses. Qed.

(** The bytes still expected go down by what is consumed. *)
Lemma length_calls_inv : forall S I (D : Decoder S I) st0 t st,
  decode_calls (length_decoder D) st0 t st ->
  (N.of_nat t + ln_remaining st = ln_remaining st0)%N /\ ln_expected st = ln_expected st0.
Proof.
  intros S I D st0. apply decode_calls_inv; [cbn; auto|].
    intros t st fuel buf e st2 r (HA & HB) X. cbn [dec_decode length_decoder] in X.
    unfold length_decode in X.
    assert (G : forall st2 r,
      (let '(s', r) := dec_decode D fuel (ln_inner st)
             (firstn (N.to_nat (N.min (len buf) (ln_remaining st))) buf)
             (eos_with_remaining (Finite (ln_remaining st - N.min (len buf) (ln_remaining st)))) in
       match r with
       | Ok size => match u64_sub (ln_remaining st) (N.of_nat size) with
                    | Some rem => (mkLength s' (ln_expected st) rem, Ok size)
                    | None => (mkLength s' (ln_expected st) (ln_remaining st), Panic)
                    end
       | r' => (mkLength s' (ln_expected st) (ln_remaining st), r')
       end) = (st2, r) ->
      (N.of_nat (t + size_of r) + ln_remaining st2 = ln_remaining st0)%N /\ ln_expected st2 = ln_expected st0).
    { clear X. intros st3 r3 X. destruct (dec_decode D _ _ _ _) as [s' [k|k| |]];
        try (injection X as <- <-; cbn; rewrite ?Nat.add_0_r; auto; fail).
      unfold u64_sub in X. destruct (N.of_nat k <=? ln_remaining st)%N eqn:K;
        injection X as <- <-; cbn; rewrite ?Nat.add_0_r; auto. split; auto. lia. }
    destruct (bc_to_u64 (remaining_bytes e)) as [rm|]; [|now apply G].
    destruct (u64_add rm (len buf)); [|injection X as <- <-; cbn; rewrite Nat.add_0_r; auto].
    destruct (_ <=? _)%N; [now apply G|injection X as <- <-; cbn; rewrite Nat.add_0_r; auto].
Qed.
(** For every inner decoder and every history of calls, right or wrong: at most [n] bytes are
    consumed for an item, an item comes only after exactly [n], and then [n] are expected again. *)
Theorem C13_length_budget : forall S I (D : Decoder S I) s n t st,
  decode_calls (length_decoder D) (length_new s n) t st ->
  (N.of_nat t <= n)%N /\
  (N.of_nat t + ln_remaining st = n)%N /\
  (forall st' i, dec_finish (length_decoder D) st = (st', Ok i) ->
     N.of_nat t = n /\ exists s', st' = length_new s' n) /\
  (forall st' k, N.of_nat t <> n -> dec_finish (length_decoder D) st = (st', k) ->
     st' = st /\ k = Err IncompleteDecoding).
Proof.
  intros S I D s n t st H. destruct (length_calls_inv H) as (HA & HB). cbn in HA, HB.
  split; [lia|]. split; auto. split.
  - intros st' i X. cbn in X. destruct (ln_remaining st =? 0)%N eqn:R; [|discriminate].
    destruct (dec_finish D (ln_inner st)) as [s' r]. injection X as <- _.
    split; [lia|]. exists s'. now rewrite HB.
  - intros st' k NE X. cbn in X. replace (ln_remaining st =? 0)%N with false in X by lia.
    injection X as <- <-. auto.
Qed.
Print Assumptions C13_length_budget.

(** The inner decoder is given exactly the bytes of the window, with the exact distance to its
    end, whatever the caller says about the outer stream. *)
Theorem C13_length_inner_view : forall S I (D : Decoder S I) fuel st buf e st' k,
  dec_decode (length_decoder D) fuel st buf e = (st', Ok k) ->
  let avail := N.min (len buf) (ln_remaining st) in
  dec_decode D fuel (ln_inner st) (firstn (N.to_nat avail) buf)
    (Finite (ln_remaining st - avail)) = (ln_inner st', Ok k) /\
  ln_remaining st' = (ln_remaining st - N.of_nat k)%N.
Proof.
  intros S I D fuel st buf e st' k X avail. cbn [dec_decode length_decoder] in X.
  unfold length_decode in X. fold avail in X. unfold eos_with_remaining in X.
  set (g := dec_decode D fuel (ln_inner st) (firstn (N.to_nat avail) buf)
              (Finite (ln_remaining st - avail))) in *.
  assert (G : (let '(s', r) := g in
       match r with
       | Ok size => match u64_sub (ln_remaining st) (N.of_nat size) with
                    | Some rem => (mkLength s' (ln_expected st) rem, Ok size)
                    | None => (mkLength s' (ln_expected st) (ln_remaining st), Panic)
                    end
       | r' => (mkLength s' (ln_expected st) (ln_remaining st), r')
       end) = (st', Ok k)).
  { destruct (bc_to_u64 (remaining_bytes e)) as [rm|]; auto.
    destruct (u64_add rm (len buf)); [|discriminate]. destruct (_ <=? _)%N; [auto|discriminate]. }
  clear X. destruct g as [s' [z|z| |]]; try discriminate.
  unfold u64_sub in G. destruct (N.of_nat z <=? ln_remaining st)%N; [|discriminate].
  injection G as <- <-. auto.
Qed.
Print Assumptions C13_length_inner_view.

(** ** C16: max_bytes(n) *)

(** The budget left goes down by what is consumed. *)
Lemma max_calls_inv : forall S I (D : Decoder S I) st0, honest D ->
  (mx_consumed st0 <= mx_max st0)%N -> forall t st,
  decode_calls (max_decoder D) st0 t st ->
  mx_consumed st = (mx_consumed st0 + N.of_nat t)%N /\ mx_max st = mx_max st0 /\
  (mx_consumed st <= mx_max st0)%N.
Proof.
  intros S I D st0 HO C0. set (n := mx_max st0). apply decode_calls_inv; [split; [lia|split; [auto|exact C0]]|].
    intros t st fuel buf e st2 r (HA & HB & HC) X. cbn [dec_decode max_decoder] in X.
    unfold max_decode in X. destruct (max_check st buf e) as [u|u| |] eqn:CK;
      try (injection X as <- <-; cbn; rewrite Nat.add_0_r; auto; fail).
    assert (LB : (len buf <= n - mx_consumed st)%N).
    { unfold max_check in CK. rewrite HB in CK. unfold u64_sub in CK.
      replace (mx_consumed st <=? n)%N with true in CK by lia.
      destruct (remaining_bytes e) as [rm| |]; try discriminate.
      - destruct (u64_add (len buf) rm) as [tot|] eqn:T; [|discriminate].
        unfold u64_add in T. destruct (_ <=? u64_max)%N; [|discriminate]. injection T as <-.
        destruct (len buf + rm <=? n - mx_consumed st)%N eqn:Y; [lia|discriminate].
      - destruct (len buf <=? n - mx_consumed st)%N eqn:Y; [lia|discriminate]. }
    destruct (dec_decode D fuel (mx_inner st) buf e) as [s' [k|k| |]] eqn:DX;
      try (injection X as <- <-; cbn; rewrite Nat.add_0_r; auto; fail).
    pose proof (HO _ _ _ _ _ _ DX) as KL.
    destruct (u64_add (mx_consumed st) (N.of_nat k)) as [c|] eqn:U;
      injection X as <- <-; cbn.
    - unfold u64_add in U. destruct (_ <=? _)%N; [|discriminate]. injection U as <-.
      unfold len in LB. split; [lia|]. split; [auto|lia].
    - rewrite Nat.add_0_r; auto.
Qed.
(** For every inner decoder and every history: never more than [n] bytes between two items. *)
Theorem C16_max_budget : forall S I (D : Decoder S I) s n t st,
  honest D -> decode_calls (max_decoder D) (max_new s n) t st ->
  (N.of_nat t <= n)%N /\
  (forall st' r, dec_finish (max_decoder D) st = (st', r) -> exists s', st' = max_new s' n).
Proof.
  intros S I D s n t st HO H.
  destruct (max_calls_inv HO (st0 := max_new s n) ltac:(cbn; lia) H) as (A1 & A2 & A3). cbn in A1, A2, A3.
  split; [lia|]. intros st' r X. cbn in X.
  destruct (dec_finish D (mx_inner st)) as [s' r']. injection X as <- <-.
  exists s'. unfold max_new. now rewrite A2.
Qed.
Print Assumptions C16_max_budget.
Example C16_budget_example : honest ex_two /\ honest rem_decoder /\ honest (length_decoder rem_decoder).
Proof.
  split; [|split]; intros fuel s buf e s' n X; cbn in X.
  - unfold copy_decode in X. cbn in X. unfold usize_sub in X.
    destruct (cd_off s <=? length (cd_bytes s)); [|discriminate].
    destruct (negb _ && _); [discriminate|]. injection X as _ <-. lia.
  - unfold rem_decode in X. destruct (rm_eos s); [injection X as _ <-; lia|].
    destruct (bc_to_u64 _); [destruct (_ <=? _)%N; [|discriminate]|]; injection X as _ <-; lia.
  - destruct (C13_length_inner_view rem_decoder fuel s buf e X) as (Y & _).
    cbn in Y. unfold rem_decode in Y. destruct (rm_eos _); [injection Y as _ <-; lia|].
    destruct (bc_to_u64 _); [destruct (_ <=? isize_max)%N; [|discriminate]|]; injection Y as _ <-;
      rewrite firstn_length; lia.
Qed.

(** A stream of at most [n] bytes passes unchanged. *)
Theorem C16_max_transparent : forall S I (D : Decoder S I) m (Post : S -> Prop) s w i n,
  m <> SD -> (len w <= n <= u64_max)%N -> parses D m Post s w i ->
  delivers (max_decoder D) m (max_new s n) w i (fun st => exists s', st = max_new s' n /\ Post s').
Proof.
  intros S I D m Post s w i n M L H. apply parses_delivers.
  eapply parses_post; [|apply max_parses; eauto].
  intros [s' x r] (A & B & C). cbn in *. subst. exists s'. auto.
Qed.
Print Assumptions C16_max_transparent.
Example C16_transparent_example :
  (len [xaa; xbb; xcc] <= 3 <= u64_max)%N /\
  parses rem_decoder ToEos rem_ready rem_dec_new [xaa; xbb; xcc] [xaa; xbb; xcc].
Proof. split; [split; discriminate|apply ex_rest_parses]. Qed.

(** What exceeds the rest of the budget is refused, and nothing changes; what does not is passed on
    to the inner decoder as it is. *)
Theorem C16_max_call : forall S I (D : Decoder S I) fuel st buf e,
  (mx_consumed st <= mx_max st <= u64_max)%N -> (match e with Finite rest => len buf + rest | _ => 0 end <= u64_max)%N ->
  let fits := match e with
              | Finite rest => (mx_consumed st + len buf + rest <= mx_max st)%N
              | Unknown => (mx_consumed st + len buf <= mx_max st)%N
              | Infinite => False
              end in
  (~ fits -> dec_decode (max_decoder D) fuel st buf e = (st, Err InvalidInput)) /\
  (fits -> honest D -> forall st' r, dec_decode (max_decoder D) fuel st buf e = (st', r) ->
     dec_decode D fuel (mx_inner st) buf e = (mx_inner st', r) /\
     mx_consumed st' = (mx_consumed st + N.of_nat (size_of r))%N /\ mx_max st' = mx_max st).
Proof.
  intros S I D fuel st buf e C EF fits.
  assert (CK : (fits -> max_check st buf e = Ok tt) /\
               (~ fits -> max_check st buf e = Err InvalidInput)).
  { subst fits. unfold max_check. destruct e as [rm| |]; cbn [remaining_bytes]; [|tauto|].
    - cbn in EF. rewrite u64_sub_ok, u64_add_ok by lia.
      destruct (len buf + rm <=? mx_max st - mx_consumed st)%N eqn:Y; split; intros; auto; lia.
    - rewrite u64_sub_ok by lia.
      destruct (len buf <=? mx_max st - mx_consumed st)%N eqn:Y; split; intros; auto; lia. }
  destruct CK as (CK1 & CK2). cbn [dec_decode max_decoder]. unfold max_decode. split.
  - intros NF. now rewrite CK2.
  - intros FI HO st' r X. rewrite CK1 in X by auto.
    assert (LB : (mx_consumed st + len buf <= mx_max st)%N).
    { subst fits. destruct e; lia. }
    destruct (dec_decode D fuel (mx_inner st) buf e) as [s' [k|k| |]] eqn:DX;
      try (injection X as <- <-; cbn; rewrite ?N.add_0_r; auto; fail).
    pose proof (HO _ _ _ _ _ _ DX). unfold len in LB.
    rewrite u64_add_ok in X by lia. injection X as <- <-. cbn. auto.
Qed.
Print Assumptions C16_max_call.

(** The limit is on what is offered, not on what is consumed: a self-delimiting item that fits the
    budget is refused if the buffer contains more than the budget. *)
Theorem C16_max_offered_refuted : exists w extra i,
  parses ex_two SD ex_two_ready ex_two_new w i /\ (len w <= 3)%N /\
  snd (dec_decode ex_two 9 ex_two_new (w ++ extra) Unknown) = Ok (length w) /\
  snd (dec_decode (max_decoder ex_two) 9 (max_new ex_two_new 3) (w ++ extra) Unknown)
    = Err InvalidInput.
Proof.
  exists [x01; x02], [x03; x04], [x01; x02]. split; [apply ex_two_parses|].
  split; [discriminate|]. split; reflexivity.
Qed.
Print Assumptions C16_max_offered_refuted.
