(** * C83: [collect] and [collectn] into any collection *)
From Coq Require Import Lia.
From Verif Require Import Extend ObserveProofs Props_Comb Props_Seq.
Set Implicit Arguments.

(** ** A decoder seen through a map of its states and items *)
Section Through.
  Context {S1 S2 I1 I2 : Type} (D1 : Decoder S1 I1) (D2 : Decoder S2 I2) (f : S1 -> S2) (g : I1 -> I2).
  Hypothesis DEC : forall fuel s buf e,
    dec_decode D2 fuel (f s) buf e
    = (f (fst (dec_decode D1 fuel s buf e)), snd (dec_decode D1 fuel s buf e)).
  Hypothesis FIN : forall s,
    dec_finish D2 (f s) = (f (fst (dec_finish D1 s)), rmap g (snd (dec_finish D1 s))).
  Hypothesis REQ : forall s, dec_req D2 (f s) = dec_req D1 s.
  Hypothesis IDL : forall s, dec_idle D2 (f s) = dec_idle D1 s.

  Lemma through_do : forall s o,
    dec_do D2 (f s) o = (f (fst (dec_do D1 s o)), obs_through g (snd (dec_do D1 s o))).
  Proof.
    intros s [fuel buf e| | |]; cbn [dec_do].
    - rewrite DEC. destruct (dec_decode D1 fuel s buf e); reflexivity.
    - rewrite FIN. destruct (dec_finish D1 s); reflexivity.
    - rewrite REQ. reflexivity.
    - rewrite IDL. reflexivity.
  Qed.
  Lemma through_trace : forall ops s, dec_trace D2 (f s) ops = map (obs_through g) (dec_trace D1 s ops).
  Proof.
    induction ops as [|o ops IH]; intros s; cbn [dec_trace map]; auto.
    rewrite through_do. destruct (dec_do D1 s o) as [s' b]; cbn [fst snd map]. now rewrite IH.
  Qed.
  Lemma through_feed : forall fuel sched s input,
    feed D2 fuel (f s) input sched
    = (let '(s', rest, r) := feed D1 fuel s input sched in (f s', rest, r)).
  Proof.
    intros fuel. induction sched as [|[k h] sched IH]; intros s input; cbn [feed]; auto.
    rewrite IDL, DEC. destruct (dec_idle D1 s); auto.
    destruct (dec_decode D1 fuel s (firstn k input) (hint_eos h (skipn k input))) as [s' [n|k'| |]]; cbn [fst snd]; auto.
  Qed.
  Lemma through_delivers : forall m s w i Post,
    delivers D1 m s w i Post -> delivers D2 m (f s) w (g i) (fun t => exists s', t = f s' /\ Post s').
  Proof.
    intros m s w i Post H fuel sched extra A B C.
    destruct (H fuel sched extra A B C) as (s' & X & Y & Z).
    exists (f s'). rewrite through_feed, X, !IDL. repeat split; auto; try (apply Y; auto).
    intros J. destruct (Z J) as (s'' & F & P). exists (f s''). rewrite FIN, F. cbn. eauto.
  Qed.
End Through.

(** ** The list model of [Comb.v], seen through [collected] *)
Section Into.
  Context {S I T : Type} (D : Decoder S I) (dflt : T) (ext : T -> I -> T).
  Let col := collected dflt ext.
  Definition to_into (st : Collect S I) : CollectInto S T := mkInto (cl_inner st) (col (cl_items st)) (cl_eos st).
  Definition to_ninto (st : CollectN S I) : CollectNInto S T := mkNInto (cn_inner st) (cn_remaining st) (col (cn_items st)).

  Lemma col_snoc : forall l i, col (l ++ [i]) = ext (col l) i.
  Proof. intros. unfold col, collected. now rewrite fold_left_app. Qed.
  Lemma into_loop_same : forall n fuel s items off buf e,
    into_loop D ext n fuel s (col items) off buf e
    = (to_into (fst (collect_loop D n fuel s items off buf e)), snd (collect_loop D n fuel s items off buf e)).
  Proof.
    induction n as [|n IH]; intros fuel s items off buf e; cbn [into_loop collect_loop];
      destruct (off <? length buf); try reflexivity.
    destruct (try_decode D fuel s off buf e) as [s' off'|s' r]; try reflexivity.
    destruct (dec_finish D s') as [s'' [i|k| |]]; try reflexivity.
    now rewrite <- col_snoc, IH.
  Qed.
  Lemma ninto_loop_same : forall rem fuel s items off buf e,
    ninto_loop D ext fuel rem s (col items) off buf e
    = (to_ninto (fst (collectn_loop D fuel rem s items off buf e)), snd (collectn_loop D fuel rem s items off buf e)).
  Proof.
    induction rem as [|rem IH]; intros fuel s items off buf e; cbn [ninto_loop collectn_loop]; try reflexivity.
    destruct (off <? length buf); try reflexivity.
    destruct (try_decode D fuel s off buf e) as [s' off'|s' r]; try reflexivity.
    destruct (dec_finish D s') as [s'' [i|k| |]]; try reflexivity.
    now rewrite <- col_snoc, IH.
  Qed.

  Lemma into_decode : forall fuel st buf e,
    dec_decode (into_decoder D dflt ext) fuel (to_into st) buf e
    = (to_into (fst (dec_decode (collect_decoder D) fuel st buf e)), snd (dec_decode (collect_decoder D) fuel st buf e)).
  Proof.
    intros fuel [s l b] buf e. cbn [dec_decode into_decoder collect_decoder to_into ci_eos ci_inner ci_items cl_eos cl_inner cl_items].
    destruct b; [reflexivity|]. apply into_loop_same.
  Qed.
  Lemma into_finish : forall st,
    dec_finish (into_decoder D dflt ext) (to_into st)
    = (to_into (fst (dec_finish (collect_decoder D) st)), rmap col (snd (dec_finish (collect_decoder D) st))).
  Proof. intros [s l []]; reflexivity. Qed.
  Lemma into_req : forall st, dec_req (into_decoder D dflt ext) (to_into st) = dec_req (collect_decoder D) st.
  Proof. reflexivity. Qed.
  Lemma into_idle : forall st, dec_idle (into_decoder D dflt ext) (to_into st) = dec_idle (collect_decoder D) st.
  Proof. reflexivity. Qed.

  Lemma ninto_decode : forall fuel st buf e,
    dec_decode (ninto_decoder D dflt ext) fuel (to_ninto st) buf e
    = (to_ninto (fst (dec_decode (collectn_decoder D) fuel st buf e)), snd (dec_decode (collectn_decoder D) fuel st buf e)).
  Proof. intros fuel [s n l] buf e. apply ninto_loop_same. Qed.
  Lemma ninto_finish : forall st,
    dec_finish (ninto_decoder D dflt ext) (to_ninto st)
    = (to_ninto (fst (dec_finish (collectn_decoder D) st)), rmap col (snd (dec_finish (collectn_decoder D) st))).
  Proof. intros [s [|n] l]; reflexivity. Qed.
  Lemma ninto_req : forall st, dec_req (ninto_decoder D dflt ext) (to_ninto st) = dec_req (collectn_decoder D) st.
  Proof. reflexivity. Qed.
  Lemma ninto_idle : forall st, dec_idle (ninto_decoder D dflt ext) (to_ninto st) = dec_idle (collectn_decoder D) st.
  Proof. reflexivity. Qed.
End Into.

(** Any history of calls, on any inner decoder, shows what it shows with a [Vec], except that the items
    returned by [finish_decoding] are in the collection. *)
Theorem C83_collect_any : forall S I T (D : Decoder S I) (dflt : T) ext s ops,
  dec_trace (into_decoder D dflt ext) (into_new dflt s) ops
  = map (obs_through (collected dflt ext)) (dec_trace (collect_decoder D) (collect_new s) ops).
Proof.
  intros S I T D dflt ext s ops.
  apply (@through_trace _ _ _ _ (collect_decoder D) (into_decoder D dflt ext) (to_into dflt ext) (collected dflt ext)
           (into_decode D dflt ext) (into_finish D dflt ext) (into_req D dflt ext) (into_idle D dflt ext) ops (collect_new s)).
Qed.
Print Assumptions C83_collect_any.
Theorem C83_collectn_any : forall S I T (D : Decoder S I) (dflt : T) ext s n ops,
  n_trace (ninto_decoder D dflt ext) (@ninto_set S T) (ninto_new dflt s n) ops
  = map (obs_through (collected dflt ext)) (n_trace (collectn_decoder D) (@collectn_set S I) (collectn_new s n) ops).
Proof.
  intros S I T D dflt ext s n ops.
  change (ninto_new dflt s n) with (to_ninto dflt ext (collectn_new s n)).
  generalize (collectn_new (I := I) s n) as st.
  induction ops as [|[o|k] ops IH]; intros st; cbn [n_trace map]; auto.
  - rewrite (@through_do _ _ _ _ (collectn_decoder D) (ninto_decoder D dflt ext) (to_ninto dflt ext) (collected dflt ext)
               (ninto_decode D dflt ext) (ninto_finish D dflt ext) (ninto_req D dflt ext) (ninto_idle D dflt ext)).
    destruct (dec_do (collectn_decoder D) st o) as [st' b]; cbn [fst snd map]. now rewrite IH.
  - apply (IH (collectn_set st k)).
Qed.
Print Assumptions C83_collectn_any.

(** Over a decoder that meets the contract: all the items of the stream, and only they, in their order. *)
Theorem C83_collect : forall S I T (D : Decoder S I) (dflt : T) ext (fmt : format I) (P : S -> Prop) s ws is,
  decodes D SD fmt P P -> (forall w i, fmt w i -> w <> []) -> (exists w i, fmt w i) -> P s ->
  Forall2 fmt ws is -> (len (concat ws) <= isize_max)%N ->
  delivers (into_decoder D dflt ext) ToEos (into_new dflt s) (concat ws) (fold_left ext is dflt)
    (fun st => exists s', st = into_new dflt s' /\ P s').
Proof.
  intros S I T D dflt ext fmt P s ws is DEC NE INH HP F L.
  pose proof (@C23_collect _ _ D fmt P s ws is DEC NE INH HP F L) as H.
  pose proof (@through_delivers _ _ _ _ (collect_decoder D) (into_decoder D dflt ext) (to_into dflt ext) (collected dflt ext)
           (into_decode D dflt ext) (into_finish D dflt ext) (into_idle D dflt ext) _ _ _ _ _ H) as X.
  intros fuel sched extra A B C. destruct (X fuel sched extra A B C) as (t & X1 & X2 & X3).
  exists t. split; [exact X1|]. split; [exact X2|]. intros J. destruct (X3 J) as (t' & Y & s' & -> & s'' & -> & PS).
  exists (into_new dflt s''). split; [exact Y|]. eauto.
Qed.
Print Assumptions C83_collect.
Theorem C83_collectn : forall S I T (D : Decoder S I) (dflt : T) ext (fmt : format I) (P : S -> Prop) s ws is,
  decodes D SD fmt P P -> (forall w i, fmt w i -> w <> []) -> P s ->
  Forall2 fmt ws is -> (len (concat ws) <= isize_max)%N ->
  delivers (ninto_decoder D dflt ext) SD (ninto_new dflt s (length is)) (concat ws) (fold_left ext is dflt)
    (fun st => exists s', st = ninto_new dflt s' 0 /\ P s').
Proof.
  intros S I T D dflt ext fmt P s ws is DEC NE HP F L.
  pose proof (@C22_collectn _ _ D fmt P s ws is DEC NE HP F L) as H.
  pose proof (@through_delivers _ _ _ _ (collectn_decoder D) (ninto_decoder D dflt ext) (to_ninto dflt ext) (collected dflt ext)
           (ninto_decode D dflt ext) (ninto_finish D dflt ext) (ninto_idle D dflt ext) _ _ _ _ _ H) as X.
  intros fuel sched extra A B C. destruct (X fuel sched extra A B C) as (t & X1 & X2 & X3).
  exists t. split; [exact X1|]. split; [exact X2|]. intros J. destruct (X3 J) as (t' & Y & s' & -> & s'' & -> & PS).
  exists (ninto_new dflt s'' 0). split; [exact Y|]. eauto.
Qed.
Print Assumptions C83_collectn.

(** ** Exactly the items that the inner decoder has handed out, also across failing calls *)
Section Kept.
  Context {S I T : Type} (D : Decoder S I) (dflt : T) (ext : T -> I -> T).
  Let col := collected dflt ext.

  Lemma logged_try : forall fuel st off buf e,
    match try_decode (logged D) fuel st off buf e with
    | TGo st' _ => snd st' = snd st
    | TRet st' _ => snd st' = snd st
    end.
  Proof.
    intros fuel [s l] off buf e. unfold try_decode. destruct (dec_idle (logged D) (s, l)); auto.
    destruct (slice_from off buf) as [b|]; auto. cbn [dec_decode logged fst snd].
    destruct (dec_decode D fuel s b e) as [s' [n|k| |]]; cbn [snd]; auto.
    destruct (dec_idle (logged D) (s', l)); auto.
  Qed.
  Lemma logged_finish : forall st,
    match dec_finish (logged D) st with
    | (st', Ok i) => snd st' = snd st ++ [i]
    | (st', _) => snd st' = snd st
    end.
  Proof. intros [s l]. cbn. destruct (dec_finish D s) as [s' [i|k| |]]; reflexivity. Qed.

  Lemma into_loop_kept : forall n fuel st items off buf e st' r,
    items = col (snd st) ->
    into_loop (logged D) ext n fuel st items off buf e = (st', r) ->
    ci_items st' = col (snd (ci_inner st')).
  Proof.
    induction n as [|n IH]; intros fuel st items off buf e st' r E; cbn [into_loop];
      destruct (off <? length buf); intros X; try (inversion X; subst; reflexivity).
    pose proof (logged_try fuel st off buf e) as L.
    destruct (try_decode (logged D) fuel st off buf e) as [s1 off'|s1 r1].
    2:{ inversion X; subst. cbn. now rewrite L. }
    pose proof (logged_finish s1) as L'.
    destruct (dec_finish (logged D) s1) as [s2 [i|k| |]];
      try (inversion X; subst; cbn; now rewrite L', L).
    eapply IH; [|exact X]. rewrite L', L, E. unfold col, collected. now rewrite fold_left_app.
  Qed.
  Lemma ninto_loop_kept : forall rem fuel st items off buf e st' r,
    items = col (snd st) ->
    ninto_loop (logged D) ext fuel rem st items off buf e = (st', r) ->
    ni_items st' = col (snd (ni_inner st')) /\
    ni_remaining st' + length (snd (ni_inner st')) = rem + length (snd st).
  Proof.
    induction rem as [|rem IH]; intros fuel st items off buf e st' r E; cbn [ninto_loop]; intros X.
    { inversion X; subst. auto. }
    destruct (off <? length buf); [|inversion X; subst; auto].
    pose proof (logged_try fuel st off buf e) as L.
    destruct (try_decode (logged D) fuel st off buf e) as [s1 off'|s1 r1].
    2:{ inversion X; subst. cbn. rewrite L. auto. }
    pose proof (logged_finish s1) as L'.
    destruct (dec_finish (logged D) s1) as [s2 [i|k| |]];
      try (inversion X; subst; cbn; rewrite L', L; now auto).
    apply IH in X.
    - destruct X as [X1 X2]. split; auto. rewrite X2, L', app_length, L. cbn. lia.
    - rewrite L', L, E. unfold col, collected. now rewrite fold_left_app.
  Qed.
End Kept.

(** The log does not change what is observed. *)
Theorem C83_log_is_silent : forall S I (D : Decoder S I) s l ops,
  dec_trace (logged D) (s, l) ops = dec_trace D s ops.
Proof.
  intros S I D s l ops. revert s l. induction ops as [|o ops IH]; intros s l; cbn [dec_trace]; auto.
  destruct o as [fuel buf e| | |]; cbn [dec_do logged dec_decode dec_finish dec_req dec_idle fst snd].
  - destruct (dec_decode D fuel s buf e) as [s' r]. now rewrite IH.
  - destruct (dec_finish D s) as [s' [i|k| |]]; now rewrite IH.
  - now rewrite IH.
  - now rewrite IH.
Qed.
Print Assumptions C83_log_is_silent.

(** Whatever the calls of [decode] were and whether they failed or not, the collection that
    [finish_decoding] returns holds exactly the items that the inner decoder has handed out; then the
    next one begins with the default. *)
Theorem C83_collect_kept : forall S I T (D : Decoder S I) (dflt : T) ext s t st st' x,
  decode_calls (into_decoder (logged D) dflt ext) (into_new dflt (s, [])) t st ->
  dec_finish (into_decoder (logged D) dflt ext) st = (st', Ok x) ->
  x = fold_left ext (snd (ci_inner st)) dflt /\ st' = into_new dflt (ci_inner st).
Proof.
  intros S I T D dflt ext s t st st' x H F.
  assert (K : ci_items st = collected dflt ext (snd (ci_inner st))).
  { clear st' x F. induction H as [|t s1 fuel buf e s2 r H IH X]; [reflexivity|].
    cbn [dec_decode into_decoder] in X. destruct (ci_eos s1); [inversion X; subst; auto|].
    eapply into_loop_kept; [|exact X]. exact IH. }
  cbn [dec_finish into_decoder] in F. destruct (ci_eos st); inversion F; subst. auto.
Qed.
Print Assumptions C83_collect_kept.
(** For [collectn] also the number of items: [n] in all, with those not yet handed out. *)
Theorem C83_collectn_kept : forall S I T (D : Decoder S I) (dflt : T) ext s n t st,
  decode_calls (ninto_decoder (logged D) dflt ext) (ninto_new dflt (s, []) n) t st ->
  ni_remaining st + length (snd (ni_inner st)) = n /\
  forall st' x, dec_finish (ninto_decoder (logged D) dflt ext) st = (st', Ok x) ->
    x = fold_left ext (snd (ni_inner st)) dflt /\ length (snd (ni_inner st)) = n /\
    st' = ninto_new dflt (ni_inner st) 0.
Proof.
  intros S I T D dflt ext s n t st H.
  assert (K : ni_items st = collected dflt ext (snd (ni_inner st)) /\
              ni_remaining st + length (snd (ni_inner st)) = n).
  { induction H as [|t s1 fuel buf e s2 r H IH X]; [cbn; split; [reflexivity|lia]|].
    destruct IH as [IH1 IH2]. cbn [dec_decode ninto_decoder] in X.
    destruct (ninto_loop_kept D dflt ext _ _ _ _ _ _ IH1 X) as [A B]. split; auto. lia. }
  destruct K as [K1 K2]. split; [exact K2|]. intros st' x F.
  cbn [dec_finish ninto_decoder] in F.
  destruct (ni_remaining st =? 0) eqn:Z; inversion F; subst. apply Nat.eqb_eq in Z.
  repeat split; auto; try lia. unfold ninto_new. now rewrite Z.
Qed.
Print Assumptions C83_collectn_kept.

(** ** Examples *)
(** A map from the first byte of each pair to the second: the last one wins. *)
Definition ex_put (m : list (byte * byte)) (p : list byte) : list (byte * byte) :=
  match p with
  | [k; v] => filter (fun x => negb (Byte.eqb (fst x) k)) m ++ [(k, v)]
  | _ => m
  end.
Definition ex_map := into_decoder ex_two [] ex_put.
Definition ex_run {S I} (D : Decoder S I) (s : S) (calls : list (list byte * bool)) : S * list (res nat) * res I :=
  let '(s', rs) := fold_left (fun a c => let '(s1, r) := dec_decode D 20 (fst a) (fst c) (eos_new (snd c)) in
                                         (s1, snd a ++ [r])) calls (s, []) in
  (s', rs, snd (dec_finish D s')).
Example C83_map_example :
  let '(_, rs, x) := ex_run ex_map (into_new [] ex_two_new) [([x01; x0a; x02], false); ([x0b; x01; x0c], true)] in
  rs = [Ok 3; Ok 3] /\ x = Ok [(x02, x0b); (x01, x0c)].
Proof. vm_compute. split; reflexivity. Qed.
(** A pair whose item is refused is not in the collection; those before it are kept. *)
Definition ex_refuse (p : list byte) : list byte + ErrorKind :=
  match p with x00 :: _ => inr InvalidInput | _ => inl p end.
Definition ex_pairs := into_decoder (logged (try_map_decoder ex_two ex_refuse)) [] ex_put.
Example C83_kept_example :
  let '(st, rs, x) := ex_run ex_pairs (into_new [] (ex_two_new, []))
                        [([x01; x0a; x00; x0b], false); ([x03; x0c], true)] in
  rs = [Err InvalidInput; Ok 2] /\ x = Ok [(x01, x0a); (x03, x0c)] /\
  snd (ci_inner st) = [[x01; x0a]; [x03; x0c]].
Proof. vm_compute. repeat split; reflexivity. Qed.
