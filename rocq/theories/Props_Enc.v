(** * Theorems about single encoder combinators over arbitrary parts, and the adapters:
      C15, C17, C26, C31, C32, C33, C47, C57, C58. *)
From Coq Require Import Lia ZifyBool ZifyNat ZifyN.
From Verif Require Import ObserveProofs Props_Comb.
Set Implicit Arguments.

Lemma ex_bytes_encodes : encodes (bytes_encoder vec_box) (bytes_efmt vec_box)
  (@bytes_eidle (list byte)) (@bytes_eidle (list byte)).
Proof. apply bytes_encodes. Qed.

(** ** C17: max_bytes(n) of an encoder *)

(** An item that fits passes unchanged. *)
Theorem C17_max_fits : forall S I (E : Encoder S I) (fmt : format I) (P Q : S -> Prop) s w i n,
  encodes E fmt P Q -> P s -> fmt w i -> (len w <= n <= u64_max)%N ->
  sends (max_encoder E) (max_new s n) i w (fun st => exists s', st = max_new s' n /\ Q s').
Proof.
  intros S I E fmt P Q s w i n H HP F L.
  destruct (emax_encodes (mx := n) ltac:(lia) H (conj F (proj1 L))) as (f0 & A).
  assert (A' := A (max_new s n) (conj HP (conj eq_refl eq_refl))).
  apply accepts_sends in A'. destruct A' as (f1 & A'). exists f1. intros fuel bufs FU.
  destruct (A' fuel bufs FU) as (s1 & s2 & X1 & X2 & X3 & X4). exists s1, s2.
  split; auto. split; auto. split; auto. intros id. destruct (X4 id) as (Y & Z). split; auto.
  destruct s2 as [a b c]. cbn in Z. destruct Z as (Z1 & -> & ->). exists a. auto.
Qed.
Print Assumptions C17_max_fits.

(** Otherwise the first call that takes the total above [n] fails; what was returned before is
    a prefix of the encoding. *)
Lemma max_drain : forall S I (E : Encoder S I) f0 (P : S -> Prop) n fuel bufs s w c out,
  emits E f0 P s w -> f0 + room bufs < fuel -> (c <= n)%N -> (n < c + len w)%N ->
  (c + len w <= u64_max)%N ->
  exists st k, k <= length w /\ (c + N.of_nat k <= n)%N /\
    if (n <? c + N.of_nat (room bufs))%N
    then drain (max_encoder E) fuel (mkMax s c n) out bufs = (st, out ++ firstn k w, Err InvalidInput)
    else drain (max_encoder E) fuel (mkMax s c n) out bufs = (st, out ++ firstn (room bufs) w, Ok tt).
Proof.
  intros S I E f0 P n fuel. induction bufs as [|b bufs IH]; intros s w c out H F C1 C2 C3.
  - cbn [room fold_right drain]. replace (n <? c + N.of_nat 0)%N with false by lia.
    exists (mkMax s c n), 0. cbn. rewrite app_nil_r. split; [lia|]. split; [lia|auto].
  - cbn [room fold_right] in *. fold (room bufs) in *. cbn [drain enc_idle max_encoder mx_inner].
    assert (W : w <> []). { intros ->. rewrite len_nil in C2. lia. }
    destruct (enc_idle E s) eqn:id; [destruct (emits_idle H id); contradiction|].
    cbn [enc_encode max_encoder]. unfold max_encode. cbn [mx_inner mx_consumed mx_max].
    destruct (le_lt_dec (length w) (length b)) as [K|K].
    + destruct (emits_last (eos_new false) H id K (fuel := fuel) ltac:(lia)) as (s1 & X & id1 & H1).
      rewrite X. fold (len w). rewrite u64_add_ok by lia. replace (c + len w <=? n)%N with false by lia.
      unfold len in *. replace (n <? c + N.of_nat (length b + room bufs))%N with true by lia.
      eexists _, 0. cbn. rewrite app_nil_r. split; [lia|]. split; [lia|reflexivity].
    + rewrite (split_at (length b) w) in H.
      assert (NE : skipn (length b) w <> []).
      { intros X. apply (f_equal (@length byte)) in X. rewrite skipn_length in X. cbn in X. lia. }
      destruct (emits_more H id (e := eos_new false) (buf := b) (fuel := fuel)) as (s1 & X & id1 & H1);
        [rewrite firstn_length; lia|auto|auto|lia|].
      rewrite X. unfold len in *. rewrite u64_add_ok by lia.
      destruct (c + N.of_nat (length b) <=? n)%N eqn:LE.
      * rewrite id1.
        destruct (IH s1 (skipn (length b) w) (c + N.of_nat (length b))%N
                    (out ++ firstn (length b) (firstn (length b) w)) H1) as (st & k & B1 & B2 & B3);
          try lia; try (unfold len; rewrite skipn_length; lia).
        rewrite skipn_length in B1. rewrite firstn_firstn, Nat.min_id in *.
        exists st, (length b + k). split; [lia|]. split; [lia|].
        replace (n <? c + N.of_nat (length b + room bufs))%N
          with (n <? c + N.of_nat (length b) + N.of_nat (room bufs))%N by lia.
        assert (J : forall j, firstn (length b + j) w = firstn (length b) w ++ firstn j (skipn (length b) w)).
        { intros j. rewrite <- (firstn_skipn (length b) w) at 1.
          replace (length b) with (length (firstn (length b) w)) at 1 by (rewrite firstn_length; lia).
          now rewrite firstn_app_2. }
        destruct (n <? _)%N; rewrite B3, J, app_assoc; auto.
      * replace (n <? c + N.of_nat (length b + room bufs))%N with true by lia.
        eexists _, 0. cbn. rewrite app_nil_r. split; [lia|]. split; [lia|reflexivity].
Qed.
Theorem C17_max_exceeded : forall S I (E : Encoder S I) (fmt : format I) (P Q : S -> Prop) s w i n,
  encodes E fmt P Q -> P s -> fmt w i -> (n < len w <= isize_max)%N ->
  exists f0, forall fuel bufs, f0 + room bufs < fuel ->
  exists s1 s2 k,
    enc_start (max_encoder E) fuel (max_new s n) i = (s1, Ok tt) /\ (N.of_nat k <= n)%N /\
    if (n <? N.of_nat (room bufs))%N
    then drain (max_encoder E) fuel s1 [] bufs = (s2, firstn k w, Err InvalidInput)
    else drain (max_encoder E) fuel s1 [] bufs = (s2, firstn (room bufs) w, Ok tt).
Proof.
  intros S I E fmt P Q s w i n H HP F L. destruct (H _ _ F) as (f0 & A). exists f0. intros fuel bufs FU.
  destruct (A s HP fuel ltac:(lia)) as (s1 & X & EM).
  pose proof isize_u64. 
  destruct (max_drain (n := n) (fuel := fuel) bufs (c := 0) [] EM FU) as (st & k & B1 & B2 & B3);
    try lia.
  exists (mkMax s1 0 n), st, k. split; [cbn; now rewrite X|]. split; [lia|].
  rewrite N.add_0_l in B3. exact B3.
Qed.
Print Assumptions C17_max_exceeded.
Example C17_example : bytes_efmt vec_box [x01; x02; x03] [x01; x02; x03] /\
  (2 < len [x01; x02; x03] <= isize_max)%N.
Proof. repeat split; discriminate. Qed.

(** ** C15: length(n) of an encoder *)
Theorem C15_length_exact : forall S I (E : Encoder S I) (fmt : format I) (P : S -> Prop) s w i,
  rests E P -> encodes E fmt P P -> P s -> fmt w i -> w <> [] ->
  sends (length_encoder E) (length_new s (len w)) i w (fun st => ln_remaining st = 0%N /\ P (ln_inner st)).
Proof.
  intros S I E fmt P s w i RS H HP F NE.
  assert (L : (0 < len w)%N) by (destruct w; [congruence|rewrite len_cons; lia]).
  destruct (elength_encodes RS L H (conj F eq_refl)) as (f0 & A).
  assert (A' := A (length_new s (len w)) (conj HP (conj eq_refl eq_refl))).
  apply accepts_sends in A'. destruct A' as (f1 & A'). exists f1. intros fuel bufs FU.
  destruct (A' fuel bufs FU) as (s1 & s2 & X1 & X2 & X3 & X4). exists s1, s2.
  split; auto. split; auto. split; auto. intros id. destruct (X4 id) as (Y & Z). tauto.
Qed.
Print Assumptions C15_length_exact.

(** Never more than [n] bytes, whatever the inner encoder and the history. *)
Theorem C15_length_budget : forall S I (E : Encoder S I) st0 t st,
  encode_calls (length_encoder E) st0 t st ->
  (N.of_nat t + ln_remaining st <= ln_remaining st0)%N.
Proof.
  intros S I E st0. apply encode_calls_inv; [cbn; lia|].
  intros t st fuel buf e st2 buf' r HA X. cbn [enc_encode length_encoder] in X.
  unfold length_encode in X.
  destruct (_ && is_reached e); [injection X as <- <- <-; cbn; lia|].
  destruct (enc_encode E fuel (ln_inner st) _ _) as [[s' b'] [k|k| |]];
    try (injection X as <- <- <-; cbn; lia).
  unfold u64_sub in X. destruct (N.of_nat k <=? ln_remaining st)%N eqn:K.
  - destruct (enc_idle E s' && _); injection X as <- <- <-; cbn; lia.
  - injection X as <- <- <-; cbn; lia.
Qed.
Print Assumptions C15_length_budget.

(** An item that is too short is detected when its last byte has been written. *)
Lemma length_drain_short : forall S I (E : Encoder S I) f0 (P : S -> Prop) n fuel bufs s w rem out,
  rests E P -> emits E f0 P s w -> f0 + room bufs < fuel -> (len w < rem)%N ->
  exists st k, k <= length w /\
    if negb (match bufs with [] => true | _ => false end) && (length w <=? room bufs)
    then drain (length_encoder E) fuel (mkLength s n rem) out bufs
         = (st, out ++ firstn k w, Err InvalidInput)
    else drain (length_encoder E) fuel (mkLength s n rem) out bufs
         = (st, out ++ firstn (room bufs) w, Ok tt).
Proof.
  intros S I E f0 P n fuel bufs s w rem out RS. revert s w rem out.
  induction bufs as [|b bufs IH]; intros s w rem out H F L.
  - exists (mkLength s n rem), 0. cbn. rewrite app_nil_r. split; [lia|auto].
  - cbn [room fold_right negb andb] in *. fold (room bufs) in *. cbn [drain enc_idle length_encoder ln_remaining].
    replace (rem =? 0)%N with false by lia. cbn [enc_encode length_encoder]. unfold length_encode.
    cbn [ln_inner ln_expected ln_remaining]. change (is_reached (eos_new false)) with false.
    rewrite andb_false_r. cbn iota.
    set (lim := if (len b <? rem)%N then length b else N.to_nat rem).
    set (e' := if (len b <? rem)%N then eos_new false else eos_new true).
    assert (LIM : lim <= length b /\ (lim < length b -> length w < lim) /\
                  (is_reached e' = true -> length w < lim)).
    { subst lim e'. unfold len in *. destruct (N.of_nat (length b) <? rem)%N eqn:Y; cbn; lia. }
    clearbody lim e'. destruct LIM as (LIM1 & LIM2 & LIM3).
    assert (FB : length (firstn lim b) = lim) by (rewrite firstn_length; lia).
    destruct (enc_idle E s) eqn:id.
    { destruct (emits_idle H id) as (-> & HP). destruct (RS _ HP) as (_ & _ & RE).
      destruct (RE fuel (firstn lim b) e' ltac:(lia)) as (s' & X & HP'). destruct (RS _ HP') as (id' & _).
      rewrite X. unfold len in L. rewrite u64_sub_ok by (cbn in *; lia). rewrite id'.
      replace (rem - N.of_nat 0 =? 0)%N with false by (cbn in *; lia). cbn [negb andb].
      replace (length [] <=? length b + room bufs) with true by (cbn; lia).
      eexists _, 0. split; [lia|]. cbn. now rewrite app_nil_r. }
    destruct (le_lt_dec (length w) lim) as [K|K].
    + destruct (emits_last e' H id (buf := firstn lim b) (fuel := fuel)) as (s' & X & id' & _); try lia.
      rewrite X. unfold len in L. rewrite u64_sub_ok by lia. rewrite id'.
      replace (rem - N.of_nat (length w) =? 0)%N with false by lia. cbn [negb andb].
      replace (length w <=? length b + room bufs) with true by lia.
      eexists _, 0. split; [lia|]. cbn. now rewrite app_nil_r.
    + assert (lim = length b) by lia. subst lim. rewrite firstn_all in *.
      rewrite (split_at (length b) w) in H.
      assert (NE : skipn (length b) w <> []).
      { intros X. apply (f_equal (@length byte)) in X. rewrite skipn_length in X. cbn in X. lia. }
      assert (NR : is_reached e' = false) by (destruct (is_reached e'); auto; lia).
      destruct (emits_more H id (e := e') (buf := b) (fuel := fuel)) as (s1 & X & id1 & H1);
        [rewrite firstn_length; lia|auto|auto|lia|].
      rewrite X. unfold len in L. rewrite u64_sub_ok by lia. rewrite id1. cbn [andb].
      rewrite skipn_all, app_nil_r. rewrite firstn_firstn, Nat.min_id.
      destruct (IH s1 (skipn (length b) w) (rem - N.of_nat (length b))%N (out ++ firstn (length b) w) H1)
        as (st & k & B1 & B2); try lia; try (unfold len; rewrite skipn_length; lia).
      rewrite skipn_length in B1, B2. exists st, (length b + k). split; [lia|].
      assert (J : forall j, firstn (length b + j) w = firstn (length b) w ++ firstn j (skipn (length b) w)).
      { intros j. rewrite <- (firstn_skipn (length b) w) at 1.
        replace (length b) with (length (firstn (length b) w)) at 1 by (rewrite firstn_length; lia).
        now rewrite firstn_app_2. }
      destruct bufs as [|b1 bufs].
      * cbn [room fold_right negb andb] in *. replace (length w <=? length b + 0) with false by lia.
        rewrite B2, J, app_assoc. auto.
      * cbn [negb andb] in B2.
        replace (length w <=? length b + room (b1 :: bufs))
          with (length w - length b <=? room (b1 :: bufs)) by lia.
        destruct (length w - length b <=? _); rewrite B2, J, app_assoc; auto.
Qed.
Theorem C15_length_short : forall S I (E : Encoder S I) (fmt : format I) (P : S -> Prop) s w i n,
  rests E P -> encodes E fmt P P -> P s -> fmt w i -> (len w < n)%N ->
  exists f0, forall fuel bufs, f0 + room bufs < fuel -> bufs <> [] ->
  exists s1 s2 k,
    enc_start (length_encoder E) fuel (length_new s n) i = (s1, Ok tt) /\
    if length w <=? room bufs
    then drain (length_encoder E) fuel s1 [] bufs = (s2, firstn k w, Err InvalidInput)
    else drain (length_encoder E) fuel s1 [] bufs = (s2, firstn (room bufs) w, Ok tt).
Proof.
  intros S I E fmt P s w i n RS H HP F L. destruct (H _ _ F) as (f0 & A). exists f0. intros fuel bufs FU NE.
  destruct (A s HP fuel ltac:(lia)) as (s1 & X & EM).
  destruct (length_drain_short n (fuel := fuel) bufs [] RS EM FU L) as (st & k & B1 & B2).
  exists (mkLength s1 n n), st, k.
  split; [cbn; rewrite N.eqb_refl, X; auto|].
  destruct bufs; [congruence|]. cbn [negb andb] in B2. exact B2.
Qed.
Print Assumptions C15_length_short.
Example C15_example :
  rests (bytes_encoder vec_box) (@bytes_eidle (list byte)) /\
  bytes_efmt vec_box [x01; x02; x03] [x01; x02; x03] /\ (len [x01; x02; x03] < 5)%N.
Proof. split; [apply bytes_rests|]. repeat split; discriminate. Qed.

(** [length(0)] is different: it is idle at once, so an item that is too long is swallowed: the
    call succeeds and nothing is output. *)
Theorem C15_length_zero_refuted :
  encode_into_bytes (bytes_encoder vec_box) 2000 bytes_enc_new [x01]
    = (mkBytesEnc None 1, Ok [x01]) /\
  exists st, enc_start (length_encoder (bytes_encoder vec_box)) 2000 (length_new bytes_enc_new 0) [x01]
      = (st, Ok tt) /\
    enc_idle (length_encoder (bytes_encoder vec_box)) st = true /\
    forall fuel bufs, drain (length_encoder (bytes_encoder vec_box)) fuel st [] bufs = (st, [], Ok tt).
Proof.
  split; [reflexivity|]. eexists. split; [reflexivity|]. split; [reflexivity|].
  intros fuel bufs. apply drain_idle. reflexivity.
Qed.
Print Assumptions C15_length_zero_refuted.

(** ** C26: repeat() *)
Theorem C26_repeat : forall S I (E : Encoder S I) (fmt : format I) (P : S -> Prop) s ws is,
  rests E P -> encodes E fmt P P -> (forall w i, fmt w i -> w <> []) -> P s ->
  Forall2 fmt ws is -> (len (concat ws) <= isize_max)%N ->
  sends (repeat_encoder E) (repeat_new s) is (concat ws)
    (fun st => exists s', st = repeat_new s' /\ P s').
Proof.
  intros S I E fmt P s ws is RS H NE HP F L.
  destruct (repeat_encodes RS H NE (w := concat ws) (i := is)) as (f0 & A);
    [split; auto; exists ws; auto|].
  assert (A' := A (repeat_new s) (conj HP eq_refl)).
  apply accepts_sends in A'. destruct A' as (f1 & A'). exists f1. intros fuel bufs FU.
  destruct (A' fuel bufs FU) as (s1 & s2 & X1 & X2 & X3 & X4). exists s1, s2.
  split; auto. split; auto. split; auto. intros id. destruct (X4 id) as (Y & Z). split; auto.
  destruct s2 as [a b]. cbn in Z. destruct Z as (Z1 & ->). exists a. auto.
Qed.
Print Assumptions C26_repeat.
Definition ex_nonempty : format (list byte) := fun w i => bytes_efmt vec_box w i /\ w <> [].
Example C26_example :
  rests (bytes_encoder vec_box) (@bytes_eidle (list byte)) /\
  encodes (bytes_encoder vec_box) ex_nonempty (@bytes_eidle _) (@bytes_eidle _) /\
  Forall2 ex_nonempty [[x01; x02]; [x03]] [[x01; x02]; [x03]].
Proof.
  split; [apply bytes_rests|]. split; [intros w i (X & _); now apply bytes_encodes|].
  repeat constructor; discriminate.
Qed.
(** With an item of no bytes a call returns early, although the buffer has room and
    items are left; [encode_all] takes that for an error. *)
Theorem C26_empty_item_refuted :
  exists st, enc_start (repeat_encoder (bytes_encoder vec_box)) 9 (repeat_new bytes_enc_new) [[]; [x01]]
      = (st, Ok tt) /\
    enc_encode (repeat_encoder (bytes_encoder vec_box)) 9 st [x00; x00] (eos_new false)
      = (mkRepeat (mkBytesEnc None 0) (Some [[x01]]), [x00; x00], Ok 0) /\
    snd (encode_all (repeat_encoder (bytes_encoder vec_box)) 2000 st (mkWriter [] [])) = Err Other.
Proof. eexists. split; [reflexivity|]. split; reflexivity. Qed.
Print Assumptions C26_empty_item_refuted.

(** ** C31: pre_encode() *)
Theorem C31_pre_encode : forall S I (E : Encoder S I) (fmt : format I) (P : S -> Prop) s w i,
  rests E P -> encodes E fmt P P -> P s -> fmt w i ->
  exists f0, forall fuel bufs, f0 + room bufs < fuel ->
  exists s1 s2,
    enc_start (pre_encoder E) fuel (pre_new s) i = (s1, Ok tt) /\
    pre_enc_exact s1 = Ok (len w) /\
    drain (pre_encoder E) fuel s1 [] bufs = (s2, firstn (room bufs) w, Ok tt) /\
    (* the number of bytes left is known at every moment *)
    pre_enc_exact s2 = Ok (len (skipn (room bufs) w)) /\
    enc_req (pre_encoder E) s2 = Ok (Finite (len (skipn (room bufs) w))) /\
    (enc_idle (pre_encoder E) s1 = false ->
     (enc_idle (pre_encoder E) s2 = true <-> bufs <> [] /\ length w <= room bufs)) /\
    (enc_idle (pre_encoder E) s2 = true -> P (pre_inner s2)).
Proof.
  intros S I E fmt P s w i RS H HP F.
  destruct (pre_encodes RS H _ _ F) as (f0 & A). exists f0. intros fuel bufs FU.
  assert (RQ : forall st v, emits (pre_encoder E) f0 (pre_idle P) st v ->
            pre_enc_exact st = Ok (len v) /\ enc_req (pre_encoder E) st = Ok (Finite (len v))).
  { intros st v EM. pose proof (emits_req EM) as RQ. cbn in RQ. unfold pre_enc_exact.
    cbn. destruct (bytes_enc_exact vec_box (pre_encoded st)); cbn in RQ; destruct RQ as [[= ->]|[RQ _]];
      try discriminate; auto. }
  destruct (A (pre_new s) (conj HP eq_refl) fuel ltac:(lia)) as (s1 & X & EM).
  destruct (drain_ok (fuel := fuel) bufs [] EM FU) as (s2 & X1 & X2 & X3).
  exists s1, s2. split; auto. destruct (RQ _ _ EM) as (R1 & _). destruct (RQ _ _ X2) as (R2 & R3).
  split; auto. split; auto. split; auto. split; auto. split.
  - intros id. rewrite X3, id. intuition congruence.
  - intros id. destruct (emits_idle X2 id) as (_ & Y & _). auto.
Qed.
Print Assumptions C31_pre_encode.
(** Also for an inner encoder that knows nothing, such as [repeat]. *)
Example C31_example :
  enc_req (repeat_encoder (bytes_encoder vec_box)) (mkRepeat bytes_enc_new (Some [[x01]; [x02]]))
    = Ok Unknown /\
  exists s1, enc_start (pre_encoder (repeat_encoder (bytes_encoder vec_box))) 3000
      (pre_new (repeat_new bytes_enc_new)) [[x01]; [x02]] = (s1, Ok tt) /\ pre_enc_exact s1 = Ok 2%N.
Proof. split; [reflexivity|]. eexists. split; reflexivity. Qed.
