(** * Theorems about streams that end too early: C14, C24, C38, C52.

    In all of them the stream that arrives is [t], a proper prefix of an item's bytes [t ++ u], and the
    caller's hints are true of the stream that arrives. *)
From Coq Require Import Lia ZifyBool ZifyNat ZifyN.
From Verif Require Import TruncProofs Observe ObserveProofs Drive Examples Props_Comb.
Set Implicit Arguments.

(** ** C52: the decoder reports the truncated stream *)

(** For every truncation point and every schedule: the decoder never becomes idle (so there is no
    item); it fails, if at all, with [UnexpectedEos] and only after a hint; until then it takes
    every byte offered; and once it has been told that nothing follows, it has failed.
    With [prompt = true], [told] is the call that announces the end. *)
Theorem C52_truncated_input : forall A (c : codec A) prompt t u a sched fuel,
  wf c -> reports prompt c -> reads c (t ++ u) a -> u <> [] ->
  (delim c <> SD -> ends sched) -> length t < fuel ->
  exists s rest r, feed (decoder c) fuel (dec_fresh c) t sched = (s, rest, r) /\
    ((r = Ok tt /\ told prompt (length t) sched = false /\
      dec_idle (decoder c) s = false /\ rest = skipn (offered sched) t) \/
     (r = Err UnexpectedEos /\ exists k, In (k, HExact) sched)).
Proof.
  intros A c g t u a sched fuel WF RP R NE EN F.
  destruct (proj1 term_cuts A c WF g RP) as (_ & P & Q & H & H0 & _).
  destruct (@feed_cut _ _ _ _ _ _ fuel u a sched _ t (H _ _ _ H0 R) NE EN F) as (s & rest & r & E & X).
  exists s, rest, r. split; auto. destruct X as [(X1 & X2 & X3 & X4 & X5)|X]; auto.
Qed.
Print Assumptions C52_truncated_input.

(** In particular: once the end is announced the result is [UnexpectedEos], in that very call. *)
Theorem C52_announced : forall A (c : codec A) t u a sched k fuel,
  wf c -> reports true c -> reads c (t ++ u) a -> u <> [] ->
  (delim c <> SD -> ends sched) -> length t < fuel ->
  snd (feed (decoder c) fuel (dec_fresh c) t sched) = Ok tt ->
  length t <= offered sched + k ->
  snd (feed (decoder c) fuel (dec_fresh c) t (sched ++ [(k, HExact)])) = Err UnexpectedEos.
Proof.
  intros A c t u a sched k fuel WF RP R NE EN F OKs L.
  destruct (proj1 term_cuts A c WF true RP) as (_ & P & Q & H & H0 & _).
  assert (EN' : delim c <> SD -> ends (sched ++ [(k, HExact)])).
  { intros NS. apply Forall_app. split; [apply EN; auto|]. repeat constructor. discriminate. }
  destruct (@feed_cut _ _ _ _ _ _ fuel u a _ _ t (H _ _ _ H0 R) NE EN' F) as (s & rest & r & E & X).
  rewrite E. cbn. destruct X as [(_ & _ & _ & _ & X)|(-> & _)]; auto. exfalso.
  assert (K : forall sched n, n <= offered sched + k -> told true n (sched ++ [(k, HExact)]) = true).
  { clear. induction sched as [|[k0 h0] sched IH]; unfold offered in *; cbn; intros n L.
    - replace (n <=? k) with true by lia. reflexivity.
    - rewrite IH by lia. apply orb_true_r. }
  rewrite K in X by lia. discriminate.
Qed.
Print Assumptions C52_announced.

(** A message of a number, a sign and two tag-length-value records, cut in the middle. *)
Definition ex_fix : codec (N * Z * list (N * list byte)) :=
  CTuple (PSnoc (PTwo (CU NU16be) (CS NI8)) (CCounted NU8 (CTuple (PTwo (CU NU8) (CBytes 2))))).
Example C52_example : wf ex_fix /\ reports true ex_fix /\
  reads ex_fix ([x01; x02; xff; x02; x07; xaa] ++ [xbb; x08; xcc; xdd])
    (258%N, (-1)%Z, [(7%N, [xaa; xbb]); (8%N, [xcc; xdd])]) /\ [xbb; x08; xcc; xdd] <> [] /\
  snd (feed (decoder ex_fix) 99 (dec_fresh ex_fix) [x01; x02; xff; x02; x07; xaa] [(3, HExact); (1, HNever)]) = Ok tt /\
  snd (feed (decoder ex_fix) 99 (dec_fresh ex_fix) [x01; x02; xff; x02; x07; xaa]
         ([(3, HExact); (1, HNever)] ++ [(9, HExact)])) = Err UnexpectedEos.
Proof.
  split. { cbn. unfold isize_max. intuition lia. }
  split; [cbn; auto|]. split; [|split; [discriminate|split; reflexivity]].
  cbn. split; [vm_compute; discriminate|]. exists [x01; x02; xff], [x02; x07; xaa; xbb; x08; xcc; xdd].
  split; auto. split.
  - split; [vm_compute; discriminate|]. exists [x01; x02], [xff]. repeat split; auto; try (vm_compute; congruence).
  - split; [vm_compute; discriminate|]. exists [x02], [x07; xaa; xbb; x08; xcc; xdd]. repeat split; auto.
    exists [[x07; xaa; xbb]; [x08; xcc; xdd]]. split; auto. repeat constructor; try discriminate.
    + exists [x07], [xaa; xbb]. repeat split; auto; discriminate.
    + exists [x08], [xcc; xdd]. repeat split; auto; discriminate.
Qed.

(** ** C14: length(n) *)

(** One call, for any inner decoder and any [n]: the call fails with [UnexpectedEos] and leaves everything
    as it is, exactly if the announced rest and the buffer together are fewer than the bytes that are missing
    *after* the buffer; otherwise the inner decoder decides. *)
Theorem C14_length_check : forall S I (D : Decoder S I) fuel st buf r,
  (len buf + r <= u64_max)%N ->
  let window := N.min (len buf) (ln_remaining st) in
  let missing := (ln_remaining st - window)%N in
  ((r + len buf < missing)%N ->
     dec_decode (length_decoder D) fuel st buf (Finite r) = (st, Err UnexpectedEos)) /\
  ((missing <= r + len buf)%N ->
     dec_decode (length_decoder D) fuel st buf (Finite r)
     = dec_decode (length_decoder D) fuel st buf Unknown).
Proof.
  intros S I D fuel st buf r B w ms. cbn. unfold length_decode. fold w. fold ms.
  cbn [remaining_bytes bc_to_u64]. rewrite u64_add_ok by lia. split; intros K.
  - replace (ms <=? r + len buf)%N with false by lia. reflexivity.
  - replace (ms <=? r + len buf)%N with true by lia. reflexivity.
Qed.
Print Assumptions C14_length_check.

(** Over a truncated stream no history of calls, whatever they announce, gives an item:
    any inner decoder, any [n]. *)
Theorem C14_length_no_item : forall S I (D : Decoder S I) s n t st st' i,
  decode_calls (length_decoder D) (length_new s n) t st -> (N.of_nat t < n)%N ->
  dec_finish (length_decoder D) st <> (st', Ok i).
Proof.
  intros S I D s n t st st' i H L E. destruct (C13_length_budget H) as (_ & _ & X & _).
  destruct (X _ _ E) as [K _]. lia.
Qed.
Print Assumptions C14_length_no_item.

(** Every inner decoder that meets the decoding contract, every truncation point, every schedule of true hints:
    until the error comes every byte is taken, and the error has come after any call that
    announces the end and brings no byte. *)
Theorem C14_length_truncated : forall S I (D : Decoder S I) m (Post : S -> Prop) s t u i sched fuel,
  parses D m Post s (t ++ u) i -> u <> [] -> length t < fuel ->
  exists st rest r, feed (length_decoder D) fuel (length_new s (len (t ++ u))) t sched = (st, rest, r) /\
    ((r = Ok tt /\ told false (length t) sched = false /\
      dec_idle (length_decoder D) st = false /\ rest = skipn (offered sched) t) \/
     (r = Err UnexpectedEos /\ exists k, In (k, HExact) sched)).
Proof.
  intros S I D m Post s t u i sched fuel H NE F.
  destruct (@feed_cut _ _ _ _ _ _ fuel u i sched _ t (length_cuts H) NE) as (st & rest & r & E & X); auto.
  { congruence. }
  exists st, rest, r. split; auto. destruct X as [(X1 & X2 & X3 & X4 & X5)|X]; auto.
Qed.
Print Assumptions C14_length_truncated.
Example C14_example :
  parses rem_decoder ToEos rem_ready rem_dec_new ([xaa; xbb] ++ [xcc]) [xaa; xbb; xcc] /\
  snd (feed (length_decoder rem_decoder) 9 (length_new rem_dec_new 3) [xaa; xbb] [(2, HExact)]) = Ok tt /\
  snd (feed (length_decoder rem_decoder) 9 (length_new rem_dec_new 3) [xaa; xbb] [(2, HExact); (0, HExact)])
    = Err UnexpectedEos.
Proof. split; [apply ex_rest_parses|split; reflexivity]. Qed.

(** The same for inner decoders that need not have any format at all: it is enough that they take what they are
    given while more is announced to follow.  [Inv s r]: the inner decoder, in state [s], is prepared for [r]
    more bytes. *)
Definition hungry {S I} (D : Decoder S I) (Inv : S -> N -> Prop) : Prop :=
  forall s, (forall r, Inv s r -> dec_idle D s = false) /\
  forall fuel buf r, Inv s (len buf + r)%N -> (0 < r)%N -> length buf < fuel ->
    exists s', dec_decode D fuel s buf (Finite r) = (s', Ok (length buf)) /\ Inv s' r.
Theorem C14_length_truncated_hungry : forall S I (D : Decoder S I) Inv n t sched fuel s,
  hungry D Inv -> Inv s n -> (len t < n <= u64_max)%N -> length t < fuel ->
  exists st rest r, feed (length_decoder D) fuel (length_new s n) t sched = (st, rest, r) /\
    ((r = Ok tt /\ told false (length t) sched = false /\
      dec_idle (length_decoder D) st = false /\ rest = skipn (offered sched) t) \/
     (r = Err UnexpectedEos /\ exists k, In (k, HExact) sched)).
Proof.
  intros S I D Inv n0 t sched fuel s HU iv L F.
  assert (A : forall sched t st, (len t < ln_remaining st <= u64_max)%N -> Inv (ln_inner st) (ln_remaining st) ->
    length t < fuel ->
    exists st' rest r, feed (length_decoder D) fuel st t sched = (st', rest, r) /\
    ((r = Ok tt /\ told false (length t) sched = false /\
      dec_idle (length_decoder D) st' = false /\ rest = skipn (offered sched) t) \/
     (r = Err UnexpectedEos /\ exists k, In (k, HExact) sched))).
  2:{ apply A; auto. }
  clear - HU. induction sched as [|[k h] sched IH]; intros t st L iv F.
  - do 3 eexists; split; [reflexivity|]. left. repeat split; auto. exact (proj1 (HU _) _ iv).
  - pose proof (proj1 (HU _) _ iv) as id. cbn [feed]. change (dec_idle (length_decoder D) st) with (dec_idle D (ln_inner st)). rewrite id.
    assert (LT : (len (firstn k t) + len (skipn k t) = len t)%N)
      by (rewrite <- len_app, firstn_skipn; auto).
    assert (FU : length (firstn k t) < fuel) by (rewrite firstn_length; lia).
    destruct (proj2 (HU (ln_inner st)) fuel (firstn k t) (ln_remaining st - len (firstn k t))%N) as (s' & X1 & X2);
      [replace (len (firstn k t) + _)%N with (ln_remaining st) by lia; auto|lia|auto|].
    assert (G : dec_decode (length_decoder D) fuel st (firstn k t) Unknown
      = (mkLength s' (ln_expected st) (ln_remaining st - len (firstn k t)), Ok (length (firstn k t)))).
    { cbn. unfold length_decode. cbn [remaining_bytes bc_to_u64].
      replace (N.min (len (firstn k t)) (ln_remaining st)) with (len (firstn k t)) by lia.
      rewrite len_length, firstn_all. unfold eos_with_remaining. rewrite X1.
      rewrite u64_sub_ok by (unfold len in *; lia). reflexivity. }
    assert (K : dec_decode (length_decoder D) fuel st (firstn k t) (hint_eos h (skipn k t))
        = (mkLength s' (ln_expected st) (ln_remaining st - len (firstn k t)), Ok (length (firstn k t))) /\
        (h = HExact -> t <> []) \/
       h = HExact /\ dec_decode (length_decoder D) fuel st (firstn k t) (hint_eos h (skipn k t))
        = (st, Err UnexpectedEos)).
    { destruct h; [left; split; [exact G|discriminate]| |left; split; [exact G|discriminate]].
      cbn [hint_eos].
      assert (B : (len (firstn k t) + len (skipn k t) <= u64_max)%N) by lia.
      destruct (@C14_length_check _ _ D fuel st (firstn k t) _ B) as [C1 C2].
      replace (N.min (len (firstn k t)) (ln_remaining st)) with (len (firstn k t)) in * by lia.
      destruct (N.lt_ge_cases (len (skipn k t) + len (firstn k t)) (ln_remaining st - len (firstn k t))) as [Q|Q].
      - right; split; auto.
      - left. split; [rewrite C2 by lia; exact G|]. intros _ ->.
        rewrite firstn_nil, skipn_nil in Q. unfold len in *. cbn in *. lia. }
    destruct K as [[-> K]|[-> ->]].
    + rewrite skipn_taken.
      destruct (IH (skipn k t) (mkLength s' (ln_expected st) (ln_remaining st - len (firstn k t))))
        as (st2 & rest & r & E & Y); cbn; auto; try lia.
      { rewrite skipn_length. lia. }
      exists st2, rest, r. split; auto. destruct Y as [(Y1 & Y2 & Y3 & Y4)|(Y1 & k' & Y2)]; [left|right].
      * repeat split; auto.
        -- cbn [told]. rewrite skipn_length in Y2. rewrite Y2, orb_false_r. destruct h; auto.
           specialize (K eq_refl). pose proof (length_nonnil K). destruct (Nat.eqb_spec (length t) 0); auto; lia.
        -- rewrite Y4, skipn_add. reflexivity.
      * split; auto. exists k'; cbn; auto.
    + do 3 eexists; split; [reflexivity|]. right. split; auto. exists k; cbn; auto.
Qed.
Print Assumptions C14_length_truncated_hungry.
Example C14_hungry_example :
  hungry rem_decoder (fun s r => rm_eos s = false /\ (len (rm_buf s) + r <= isize_max)%N) /\
  rm_eos rem_dec_new = false /\ (len (rm_buf rem_dec_new) + 1000 <= isize_max)%N.
Proof.
  split; [|split; [reflexivity|vm_compute; discriminate]]. intros s. split; [tauto|].
  intros fuel buf r [id B] R F. cbn. unfold rem_decode. rewrite id.
  replace (is_reached (Finite r)) with false by (cbn; destruct r; [lia|reflexivity]).
  cbn [remaining_bytes bc_to_u64]. replace (_ <=? isize_max)%N with true by lia.
  eexists; split; [reflexivity|]. cbn. rewrite len_app. split; auto; lia.
Qed.

(** What the documentation says - the error comes in the call that announces the end - is false:
    5 bytes needed, 3 are there and nothing follows, and the call succeeds. *)
Theorem C14_prompt_refuted : exists (s : RemDec) n t st k,
  (len t < n)%N /\
  dec_decode (length_decoder rem_decoder) 99 (length_new s n) t (eos_new true) = (st, Ok k) /\
  k = length t.
Proof. exists rem_dec_new, 5%N, [x01; x02; x03]. do 2 eexists. split; [reflexivity|]. split; reflexivity. Qed.
Print Assumptions C14_prompt_refuted.

(** ** C38: decode_exact on a truncated or failing reader *)

(** The data ends inside the item.  The reads may be short, return 0 early, or fail: there is always an error,
    the one of a failed read or [UnexpectedEos]. *)
Theorem C38_decode_exact_truncated : forall A (c : codec A) prompt t u a r fuel,
  wf c -> reports prompt c -> reads c (t ++ u) a -> u <> [] -> rd_data r = t -> length t < fuel ->
  exists s r' k, decode_exact (decoder c) fuel fuel (dec_fresh c) r = (s, r', Err k) /\
    (k = UnexpectedEos \/ exists e, In (RdErr e) (rd_plan r) /\ k = reported_kind e).
Proof.
  intros A c g t u a r fuel WF RP R NE RD F.
  destruct (proj1 term_cuts A c WF g RP) as (M & P & Q & H & H0 & _).
  exact (@decode_exact_cut _ _ _ _ _ _ fuel a u fuel _ t r (H _ _ _ H0 R) M NE RD F F).
Qed.
Print Assumptions C38_decode_exact_truncated.
Corollary C38_decode_exact_short_reads : forall A (c : codec A) prompt t u a r fuel,
  wf c -> reports prompt c -> reads c (t ++ u) a -> u <> [] -> rd_data r = t -> length t < fuel ->
  short_reads r ->
  exists s r', decode_exact (decoder c) fuel fuel (dec_fresh c) r = (s, r', Err UnexpectedEos).
Proof.
  intros A c g t u a r fuel WF RP R NE RD F SR.
  destruct (@C38_decode_exact_truncated _ c g t u a r fuel WF RP R NE RD F) as (s & r' & k & E & X).
  exists s, r'. rewrite E. destruct X as [->|(e & X & _)]; auto.
  unfold short_reads in SR. rewrite Forall_forall in SR. destruct (SR _ X) as (n & K). discriminate.
Qed.
Print Assumptions C38_decode_exact_short_reads.
Lemma ex_msg_cut : reads ex_msg (firstn 9 ex_msg_bytes ++ skipn 9 ex_msg_bytes) ex_msg_item.
Proof. rewrite firstn_skipn. apply ex_msg_reads. Qed.
Example C38_example : let t := firstn 9 ex_msg_bytes in
  let r := mkReader t [RdSome 0; RdSome 2] in
  wf ex_msg /\ reports false ex_msg /\ reads ex_msg (t ++ skipn 9 ex_msg_bytes) ex_msg_item /\
  skipn 9 ex_msg_bytes <> [] /\ short_reads r /\
  snd (decode_exact (decoder ex_msg) 99 99 (dec_fresh ex_msg) r) = Err UnexpectedEos.
Proof.
  cbv zeta. split; [apply ex_msg_wf|]. split; [cbn; auto 10|]. split; [apply ex_msg_cut|].
  split; [discriminate|]. split; [repeat constructor; eauto|]. vm_compute. reflexivity.
Qed.

(** Any decoder whatsoever: a read that fails ends [decode_exact] with the error of that read; so when an item is
    returned, no read has failed. *)
Definition no_failure (p : RdPlan) : Prop := match p with RdErr _ => False | _ => True end.
Theorem C38_failing_read : forall S I (D : Decoder S I) ifuel fuel s r s' r' x,
  decode_exact D fuel ifuel s r = (s', r', x) ->
  exists used, rd_plan r = used ++ rd_plan r' /\
    (Forall no_failure used \/
     exists before e, used = before ++ [RdErr e] /\ Forall no_failure before /\ x = Err (reported_kind e)).
Proof.
  intros S I D ifuel. induction fuel as [|fuel IH]; intros s r s' r' x E.
  { cbn in E. injection E as <- <- <-. exists []; split; auto. }
  cbn [decode_exact] in E.
  destruct (dec_req D s) as [q| | |]; try (injection E as <- <- <-; exists []; split; auto; fail).
  cbn zeta in E.
  assert (KEY : forall r1 (b : list byte) eos before,
     rd_plan r = before ++ rd_plan r1 -> Forall no_failure before ->
     match dec_decode D ifuel s b eos with
     | (s', Ok consumed) =>
         if consumed =? length b then
           if dec_idle D s' then let '(s'', item) := dec_finish D s' in (s'', r1, item)
           else decode_exact D fuel ifuel s' r1
         else (s', r1, Err InconsistentState)
     | (s', x) => (s', r1, rcast x)
     end = (s', r', x) ->
     exists used, rd_plan r = used ++ rd_plan r' /\
      (Forall no_failure used \/
       exists before e, used = before ++ [RdErr e] /\ Forall no_failure before /\ x = Err (reported_kind e))).
  { intros r1 b eos before RP NF K.
    assert (DONE : r' = r1 -> exists used, rd_plan r = used ++ rd_plan r' /\
      (Forall no_failure used \/
       exists before e, used = before ++ [RdErr e] /\ Forall no_failure before /\ x = Err (reported_kind e))).
    { intros ->. exists before; auto. }
    destruct (dec_decode D ifuel s b eos) as [s1 [k| | |]]; try (injection K as <- <- <-; auto; fail).
    destruct (k =? length b); [|injection K as <- <- <-; auto].
    destruct (dec_idle D s1).
    - destruct (dec_finish D s1) as [s2 it]. injection K as <- <- <-; auto.
    - destruct (IH _ _ _ _ _ K) as (used & U1 & U2).
      exists (before ++ used). split; [rewrite RP, U1, app_assoc; auto|].
      destruct U2 as [U2|(bf & e & -> & U2 & U3)]; [left; apply Forall_app; auto|right].
      exists (before ++ bf), e. rewrite app_assoc. repeat split; auto. apply Forall_app; auto. }
  destruct (exact_ask q =? 0).
  - eapply KEY with (before := []); eauto. reflexivity.
  - unfold rd_read in E. destruct r as [d plan]. cbn [rd_data rd_plan] in *.
    destruct plan as [|[n| |e] plan].
    + eapply KEY with (before := []); eauto. reflexivity.
    + eapply KEY with (before := [RdSome n]); eauto. reflexivity. repeat constructor.
    + eapply KEY with (before := [RdZero]); eauto. reflexivity. repeat constructor.
    + injection E as <- <- <-. exists [RdErr e]. split; auto. right. exists [], e. auto.
Qed.
Print Assumptions C38_failing_read.
Example C38_failing_example :
  decode_exact (decoder ex_msg) 99 99 (dec_fresh ex_msg) (mkReader ex_msg_bytes [RdSome 0; RdErr IoWouldBlock; RdSome 1])
  = (fst (fst (decode_exact (decoder ex_msg) 99 99 (dec_fresh ex_msg) (mkReader ex_msg_bytes [RdSome 0; RdErr IoWouldBlock; RdSome 1]))),
     mkReader (skipn 1 ex_msg_bytes) [RdSome 1], Err Other).
Proof. vm_compute. reflexivity. Qed.

(** ** C24: collect() and a truncated last item *)

(** Some call announces the end and brings the last bytes of the stream, at least one. *)
Fixpoint told_with_bytes (n : nat) (sched : schedule) : bool :=
  match sched with
  | [] => false
  | (k, h) :: sched' =>
      match h with HExact => (n <=? k) && negb (n =? 0) | _ => false end
      || told_with_bytes (n - k) sched'
  end.

Section CollectCut.
  Context {S I : Type} (D : Decoder S I) (fmt : format I) (P : S -> Prop)
          (CUT : forall s w i, P s -> fmt w i -> cuts D SD true P s w i)
          (NEF : forall w i, fmt w i -> w <> []).
  (** The rest [v] of the stream consists of the items [is] and the first part of another one, of which [u]
      is missing. *)
  Definition ends_inside (v u : list byte) (is : list I) : Prop :=
    exists ws t1 i, v = concat ws ++ t1 /\ Forall2 fmt ws is /\ fmt (t1 ++ u) i /\ t1 <> [].
  Definition inside (s : S) (v u : list byte) (is : list I) : Prop :=
    (P s /\ ends_inside v u is) \/
    (exists w1 i1 v2 js, v = w1 ++ v2 /\ w1 <> [] /\ cuts D SD true P s w1 i1 /\ ends_inside v2 u js /\ is = i1 :: js) \/
    (exists i, cuts D SD true P s (v ++ u) i /\ is = []).
  Lemma inside_mid : forall s v u is, u <> [] -> inside s v u is ->
    (exists w1 i1 v2 js, v = w1 ++ v2 /\ w1 <> [] /\ cuts D SD true P s w1 i1 /\ ends_inside v2 u js /\ is = i1 :: js) \/
    (exists i, cuts D SD true P s (v ++ u) i /\ is = []).
  Proof.
    intros s v u is NE [(p & ws & t1 & i & -> & F & Fi & N1)|H]; auto.
    destruct F as [|w1 i1 ws is F1 F].
    - right. exists i. auto.
    - left. exists w1, i1, (concat ws ++ t1), is. cbn. rewrite app_assoc. repeat split; eauto.
      exists ws, t1, i; auto.
  Qed.
  Lemma inside_nonnil : forall v u is, ends_inside v u is -> v <> [].
  Proof. intros v u is (ws & t1 & i & -> & _ & _ & N) E. apply app_eq_nil in E. tauto. Qed.

  Lemma collect_loop_cut : forall n fuel s acc pre b rest u is e,
    inside s (b ++ rest) u is -> u <> [] -> hinted SD b (rest ++ u) e -> (is_reached e = true -> rest = []) ->
    length b < n -> length b < fuel ->
    exists s' acc' js,
      (collect_loop D n fuel s acc (length pre) (pre ++ b) e
        = (mkCollect s' acc' (is_reached e), Ok (length (pre ++ b))) /\
       inside s' rest u js /\ acc ++ is = acc' ++ js /\ (is_reached e = true -> b = [])) \/
      (collect_loop D n fuel s acc (length pre) (pre ++ b) e
        = (mkCollect s' acc' false, Err UnexpectedEos) /\ exists r, e = Finite r).
  Proof.
    induction n as [|n IH]; intros fuel s acc pre b rest u is e C NE HI RE N F; [lia|].
    cbn [collect_loop].
    destruct b as [|x b0].
    { rewrite app_nil_r, Nat.ltb_irrefl. exists s, acc, is. left. auto. }
    set (b := x :: b0) in *. assert (NB : b <> []) by discriminate. clearbody b. clear x b0.
    pose proof (length_nonnil NB) as LB.
    replace (length pre <? length (pre ++ b)) with true by (rewrite app_length; lia).
    assert (PART : forall w1 w' i1, w1 = b ++ w' -> w' <> [] -> cuts D SD true P s w1 i1 ->
      (forall s', cuts D SD true P s' w' i1 -> inside s' rest u is) ->
      exists s' acc' js,
      (match try_decode D fuel s (length pre) (pre ++ b) e with
       | TRet s' r => (mkCollect s' acc false, r)
       | TGo s' off' =>
          match dec_finish D s' with
          | (s'', Ok i) => collect_loop D n fuel s'' (acc ++ [i]) off' (pre ++ b) e
          | (s'', r) => (mkCollect s'' acc false, rcast r)
          end
       end = (mkCollect s' acc' (is_reached e), Ok (length (pre ++ b))) /\
       inside s' rest u js /\ acc ++ is = acc' ++ js /\ (is_reached e = true -> b = [])) \/
      (match try_decode D fuel s (length pre) (pre ++ b) e with
       | TRet s' r => (mkCollect s' acc false, r)
       | TGo s' off' =>
          match dec_finish D s' with
          | (s'', Ok i) => collect_loop D n fuel s'' (acc ++ [i]) off' (pre ++ b) e
          | (s'', r) => (mkCollect s'' acc false, rcast r)
          end
       end = (mkCollect s' acc' false, Err UnexpectedEos) /\ exists r, e = Finite r)).
    { intros w1 w' i1 -> NE' H IN.
      assert (NE1 : b ++ w' <> []) by (destruct b; [congruence|discriminate]).
      pose proof (mid_not_idle NE1 (cuts_parses H)) as id.
      unfold try_decode. rewrite id, slice_from_app.
      destruct (cuts_cut H id NE' (hinted_sd HI) F) as (s' & [(X1 & X2 & X3 & X4)|(X1 & r & X2 & _)]);
        rewrite X1; exists s', acc, is.
      + left. rewrite X2, app_length.
        assert (R : is_reached e = false).
        { destruct (is_reached e) eqn:R; auto. apply reached_finite in R. destruct (X4 R). discriminate. }
        rewrite R. repeat split; auto. discriminate.
      + right. split; eauto. }
    destruct (inside_mid NE C) as [(w1 & i1 & v2 & js0 & E & NE1 & H & IN & ->)|(i & H & ->)].
    2:{ apply (PART ((b ++ rest) ++ u) (rest ++ u) i); auto.
        - now rewrite app_assoc.
        - destruct rest; [auto|discriminate].
        - intros s' H'. right. right. eauto. }
    destruct (app_cases _ _ _ _ (eq_sym E)) as [(w1' & -> & -> & NE')|(b1 & -> & ->)].
    { apply (PART (b ++ w1') w1' i1); auto. intros s' H'. right. left. exists w1', i1, v2, js0. auto 10. }
    pose proof (mid_not_idle NE1 (cuts_parses H)) as id.
    unfold try_decode. rewrite id, slice_from_app.
    destruct (hinted_truthful HI) as (rs & T).
    destruct (parses_last (cuts_parses H) id ltac:(congruence) T F) as (s' & -> & id' & H').
    cbn in id'. rewrite id'. destruct (parses_idle H' id') as (_ & _ & s'' & -> & PP).
    pose proof (length_nonnil NE1). rewrite app_length in N, F.
    destruct (IH fuel s'' (acc ++ [i1]) (pre ++ w1) b1 rest u js0 e) as (s3 & acc3 & js3 & X); try lia; auto.
    { left; auto. }
    { eapply hinted_shrink; eauto. }
    rewrite <- app_assoc in X. rewrite app_length in X. exists s3, acc3, js3.
    destruct X as [(X1 & X2 & XA & X3)|X]; [left|right; exact X]. repeat split; auto.
    { rewrite <- XA, <- app_assoc. reflexivity. }
    intros R. rewrite (X3 R), (RE R) in IN. exfalso. exact (inside_nonnil IN eq_refl).
  Qed.

  Lemma collect_feed_cut : forall fuel u sched t st is, u <> [] -> inside (cl_inner st) t u is -> cl_eos st = false ->
    (len t <= u64_max)%N -> length t < fuel ->
    exists st' rest r, feed (collect_decoder D) fuel st t sched = (st', rest, r) /\
    ((r = Ok tt /\ told_with_bytes (length t) sched = false /\ told false (length t) sched = false /\
      dec_idle (collect_decoder D) st' = false /\ rest = skipn (offered sched) t /\
      exists js, inside (cl_inner st') rest u js /\ cl_items st ++ is = cl_items st' ++ js) \/
     (r = Ok tt /\ told_with_bytes (length t) sched = false /\ told false (length t) sched = true /\
      dec_idle (collect_decoder D) st' = true /\ rest = [] /\ cl_items st' = cl_items st ++ is) \/
     (r = Err UnexpectedEos /\ exists k, In (k, HExact) sched)).
  Proof.
    intros fuel u. induction sched as [|[k h] sched IH]; intros t [s acc eos] is NE IN EO B F.
    { do 3 eexists. split; [reflexivity|]. left. cbn [cl_eos] in EO. subst. cbn. eauto 12. }
    cbn [cl_inner cl_eos] in *. subst eos.
    cbn [feed]. change (dec_idle (collect_decoder D) (mkCollect s acc false)) with false.
    cbv iota. cbn [dec_decode collect_decoder cl_eos cl_inner cl_items].
    assert (LT : (len (firstn k t) + len (skipn k t) = len t)%N)
      by (rewrite <- len_app, firstn_skipn; auto).
    assert (FU : length (firstn k t) < fuel) by (rewrite firstn_length; lia).
    rewrite <- (firstn_skipn k t) in IN.
    assert (RE : is_reached (hint_eos h (skipn k t)) = true -> h = HExact /\ skipn k t = []).
    { destruct h; cbn; try discriminate. intros R. split; auto. destruct (skipn k t); auto. discriminate. }
    destruct (@collect_loop_cut fuel fuel s acc [] (firstn k t) (skipn k t) u is (hint_eos h (skipn k t)))
      as (s' & acc' & js & X); auto.
    { destruct h; cbn; auto. split; [lia|congruence]. }
    { intros R. apply RE; auto. }
    cbn [app length] in X. destruct X as [(-> & IN' & XA & X)|(-> & r & X)].
    2:{ do 3 eexists; split; [reflexivity|]. right; right; split; auto. exists k. destruct h; try discriminate. cbn; auto. }
    destruct (is_reached (hint_eos h (skipn k t))) eqn:R.
    { destruct (RE eq_refl) as [-> R2]. specialize (X eq_refl).
      assert (t = []) as -> by (rewrite <- (firstn_skipn k t), X, R2; reflexivity). clear RE X R.
      rewrite skipn_nil, firstn_nil in *.
      assert (js = []) as ->.
      { destruct IN' as [(_ & Y2)|[(w1 & i1 & v2 & js' & Y2 & Y4 & _)|(i & _ & ->)]]; auto.
        - contradiction (inside_nonnil Y2).
        - destruct w1; [congruence|discriminate]. }
      rewrite app_nil_r in XA. cbn [length skipn].
      exists (mkCollect s' acc' true), [], (Ok tt). split; [destruct sched as [|[? ?] ?]; reflexivity|].
      right; left. repeat split; auto.
      clear. cbn [told_with_bytes length Nat.sub Nat.eqb Nat.leb negb andb orb]. induction sched as [|[k' []] l IH]; cbn; auto. }
    rewrite skipn_taken.
    destruct (IH (skipn k t) (mkCollect s' acc' false) js) as (st2 & rest & r & E & Y); auto; [lia|rewrite skipn_length; lia|].
    exists st2, rest, r. split; auto. rewrite skipn_length in Y.
    assert (Q : told_with_bytes (length t) ((k, h) :: sched) = told_with_bytes (length t - k) sched /\
                told false (length t) ((k, h) :: sched) = told false (length t - k) sched).
    { cbn [told_with_bytes told]. destruct h; auto. destruct (Nat.leb_spec (length t) k) as [Q|Q].
      - exfalso. rewrite (skipn_all2 _ Q) in R. discriminate.
      - destruct (Nat.eqb_spec (length t) 0); [lia|]. auto. }
    destruct Q as [-> ->]. cbn [cl_items] in *.
    destruct Y as [(Y1 & Y2 & Y7 & Y3 & Y4 & js2 & Y5 & Y6)|[(Y1 & Y2 & Y3 & Y4 & Y5 & Y6)|(Y1 & k' & Y2)]]; [left|right; left|right; right].
    - repeat split; auto.
      + rewrite Y4, skipn_add. reflexivity.
      + exists js2. split; auto. congruence.
    - repeat split; auto. congruence.
    - split; auto. exists k'; cbn; auto.
  Qed.
End CollectCut.

(** Any sequence of items followed by the first, non-empty part of another, for every item format that reports
    a truncated stream promptly; any schedule whatever, the hints being true of the truncated stream.
    - If some call announces the end and brings the last bytes, at least one, the error is reported.
    - If no call announces the end, the decoder waits and has taken every byte that was offered.
    - If the end is announced only by a call with an empty buffer, and no error was reported earlier because of a
      true hint that too few bytes follow, the partial item is dropped: [collect] is idle and hands out exactly the
      complete items. *)
Theorem C24_collect_truncated : forall A (c : codec A) ws is t1 u a sched fuel,
  wf (CSeq c) -> reports true c ->
  Forall2 (reads c) ws is -> reads c (t1 ++ u) a -> t1 <> [] -> u <> [] ->
  fits (concat ws ++ t1) -> length (concat ws ++ t1) < fuel ->
  let t := concat ws ++ t1 in
  exists s rest r, feed (decoder (CSeq c)) fuel (dec_fresh (CSeq c)) t sched = (s, rest, r) /\
    ((r = Err UnexpectedEos /\ exists k, In (k, HExact) sched) \/
     (r = Ok tt /\ told_with_bytes (length t) sched = false /\ told false (length t) sched = false /\
      dec_idle (decoder (CSeq c)) s = false /\ rest = skipn (offered sched) t) \/
     (r = Ok tt /\ told_with_bytes (length t) sched = false /\ told false (length t) sched = true /\
      dec_idle (decoder (CSeq c)) s = true /\ rest = [] /\
      exists s', dec_finish (decoder (CSeq c)) s = (s', Ok is))).
Proof.
  intros A c ws is t1 u a sched fuel WF RP FA FR N1 NE FT F t.
  destruct WF as (WF & DL & NN & AG & _).
  destruct (proj1 term_cuts A c WF true RP) as (_ & CU). rewrite DL, AG in CU.
  destruct (dec_cuts_again CU) as (P & CUT & P0).
  destruct (@collect_feed_cut _ _ (decoder c) (reads c) P CUT (proj1 nonempty_ok _ c NN) fuel u sched
    t (dec_fresh (CSeq c)) is) as (s & rest & r & X & Y); auto.
  - left. split; [exact P0|]. exists ws, t1, a. auto.
  - unfold t, fits, isize_max, u64_max in *. lia.
  - exists s, rest, r. split; auto.
    destruct Y as [(? & ? & ? & ? & ? & _)|[(? & ? & ? & Y1 & ? & Y2)|Y]]; auto 8.
    right; right. repeat split; auto. destruct s as [s acc eos]. cbn in Y1, Y2 |- *. subst. eauto.
Qed.
Corollary C24_reported : forall A (c : codec A) ws is t1 u a sched fuel,
  wf (CSeq c) -> reports true c ->
  Forall2 (reads c) ws is -> reads c (t1 ++ u) a -> t1 <> [] -> u <> [] ->
  fits (concat ws ++ t1) -> length (concat ws ++ t1) < fuel ->
  told_with_bytes (length (concat ws ++ t1)) sched = true ->
  exists s rest, feed (decoder (CSeq c)) fuel (dec_fresh (CSeq c)) (concat ws ++ t1) sched = (s, rest, Err UnexpectedEos).
Proof.
  intros A c ws is t1 u a sched fuel WF RP FA FR N1 NE FT F T.
  destruct (@C24_collect_truncated A c ws is t1 u a sched fuel) as (s & rest & r & E & X); auto.
  exists s, rest. rewrite E. destruct X as [[-> _]|[(_ & X & _)|(_ & X & _)]]; congruence.
Qed.
Print Assumptions C24_collect_truncated.
Print Assumptions C24_reported.
Definition ex_rec : codec (N * list byte) := CTuple (PTwo (CU NU8) (CBytes 2)).
Lemma ex_rec_reads : forall b1 b2 b3, reads ex_rec [b1; b2; b3] (be_value [b1], [b2; b3]).
Proof.
  intros. cbn. split; [vm_compute; discriminate|]. exists [b1], [b2; b3]. repeat split; try discriminate.
Qed.
Example C24_example : wf (CSeq ex_rec) /\ reports true ex_rec /\
  Forall2 (reads ex_rec) [[x07; xaa; xbb]; [x08; xcc; xdd]] [(7%N, [xaa; xbb]); (8%N, [xcc; xdd])] /\
  reads ex_rec ([x09; xee] ++ [xff]) (9%N, [xee; xff]) /\
  let t := [x07; xaa; xbb; x08; xcc; xdd; x09; xee] in
  told false 8 [(7, HUnknown); (1, HExact)] = false /\
  told_with_bytes 8 [(7, HUnknown); (1, HExact)] = true /\
  snd (feed (decoder (CSeq ex_rec)) 99 (dec_fresh (CSeq ex_rec)) t [(7, HUnknown); (1, HExact)])
    = Err UnexpectedEos.
Proof.
  split. { cbn. split; [|split; [|split; [|split; [|split]]]]; auto; [split; [exact Logic.I|split; [vm_compute; discriminate|reflexivity]]|].
    exists [x07; xaa; xbb], (7%N, [xaa; xbb]). apply ex_rec_reads. }
  split; [cbn; auto|]. split; [repeat constructor; apply ex_rec_reads|]. split; [apply ex_rec_reads|].
  repeat split; vm_compute; reflexivity.
Qed.

Lemma feed_then : forall S I (D : Decoder S I) fuel s1 s2 s input t rest,
  feed D fuel s input s1 = (t, rest, Ok tt) -> dec_idle D t = false ->
  feed D fuel s input (s1 ++ s2) = feed D fuel t rest s2.
Proof.
  intros S I D fuel. induction s1 as [|[k h] s1 IH]; intros s2 s input t rest; cbn.
  - now intros [= <- <-].
  - destruct (dec_idle D s) eqn:id.
    + intros [= <- <-]. congruence.
    + destruct (dec_decode D fuel s _ _) as [s' [n| | |]]; try discriminate. apply IH.
Qed.
(** Without that byte, the property is false in every case: whatever complete items precede the partial one and
    however the bytes came, if the end is announced by a call with an empty buffer, [collect] is idle and hands
    out exactly the complete items, as if the stream were complete. *)
Theorem C24_dropped_refuted : forall A (c : codec A) ws is t1 u a sched fuel,
  wf (CSeq c) -> reports true c ->
  Forall2 (reads c) ws is -> reads c (t1 ++ u) a -> t1 <> [] -> u <> [] ->
  fits (concat ws ++ t1) -> length (concat ws ++ t1) < fuel ->
  Forall (fun call => snd call <> HExact) sched -> length (concat ws ++ t1) <= offered sched ->
  exists s s',
    feed (decoder (CSeq c)) fuel (dec_fresh (CSeq c)) (concat ws ++ t1) (sched ++ [(0, HExact)]) = (s, [], Ok tt) /\
    dec_idle (decoder (CSeq c)) s = true /\ dec_finish (decoder (CSeq c)) s = (s', Ok is).
Proof.
  intros A c ws is t1 u a sched fuel WF RP FA FR N1 NE FT F NX OF.
  destruct WF as (WF & DL & NN & AG & _).
  destruct (proj1 term_cuts A c WF true RP) as (_ & CU). rewrite DL, AG in CU.
  destruct (dec_cuts_again CU) as (P & CUT & P0).
  destruct (@collect_feed_cut _ _ (decoder c) (reads c) P CUT (proj1 nonempty_ok _ c NN) fuel u sched
    (concat ws ++ t1) (dec_fresh (CSeq c)) is) as (s & rest & r & X & Y); auto.
  - left. split; [exact P0|]. exists ws, t1, a. auto.
  - unfold fits, isize_max, u64_max in *. lia.
  - destruct Y as [(-> & _ & _ & Y1 & -> & js & Y2 & Y3)|[(_ & _ & Y & _)|(_ & k & Y)]].
    2:{ exfalso. revert Y. generalize (length (concat ws ++ t1)). clear - NX.
        induction NX as [|[k []] l H _ IH]; cbn [told orb]; intros n; try discriminate; eauto. }
    2:{ rewrite Forall_forall in NX. contradiction (NX _ Y). reflexivity. }
    rewrite (skipn_all2 _ OF) in *.
    destruct Y2 as [(_ & Y2)|[(w1 & i1 & v2 & js' & Y2 & Y4 & _)|(i & _ & ->)]].
    { contradiction (inside_nonnil Y2). reflexivity. }
    { destruct w1; [contradiction Y4; reflexivity|discriminate]. }
    destruct s as [s acc eos]. cbn [cl_items cl_inner dec_fresh collect_new] in *. rewrite app_nil_r in Y3.
    cbn in Y3. subst acc. cbn in Y1. subst eos.
    exists (mkCollect s is true), (mkCollect s [] false). split; [|split; reflexivity].
    change (decoder (CSeq c)) with (collect_decoder (decoder c)).
    rewrite (feed_then _ _ _ _ _ _ X eq_refl). cbn [feed]. cbn [decoder dec_idle collect_decoder cl_eos].
    cbv iota. cbn [dec_decode collect_decoder cl_eos cl_inner cl_items firstn skipn].
    destruct fuel as [|fuel]; [lia|]. reflexivity.
Qed.
Print Assumptions C24_dropped_refuted.
Example C24_dropped_example :
  let sched := [(7, HUnknown); (1, HNever)] in
  Forall (fun call => snd call <> HExact) sched /\ 8 <= offered sched /\
  (let '(s, _, _) := feed (decoder (CSeq ex_rec)) 99 (dec_fresh (CSeq ex_rec))
     [x07; xaa; xbb; x08; xcc; xdd; x09; xee] (sched ++ [(0, HExact)]) in snd (dec_finish (decoder (CSeq ex_rec)) s))
    = Ok [(7%N, [xaa; xbb]); (8%N, [xcc; xdd])].
Proof.
  split; [repeat constructor; discriminate|]. split; [vm_compute; lia|]. vm_compute. reflexivity.
Qed.

(** The dropped bytes become the beginning of the first item of the next stream. *)
Theorem C24_refuted : forall S I (D : Decoder S I) (P : S -> Prop) s t u i fuel,
  parses D SD P s (t ++ u) i -> t <> [] -> u <> [] -> fits (t ++ u) -> length (t ++ u) < fuel ->
  exists st st1 st2 st3,
    feed (collect_decoder D) fuel (collect_new s) t [(length t, HUnknown); (0, HExact)] = (st, [], Ok tt) /\
    dec_idle (collect_decoder D) st = true /\
    dec_finish (collect_decoder D) st = (st1, Ok []) /\
    feed (collect_decoder D) fuel st1 u [(length u, HExact)] = (st2, [], Ok tt) /\
    dec_finish (collect_decoder D) st2 = (st3, Ok [i]).
Proof.
  intros S I D P s t u i fuel H N1 N2 FT F. rewrite app_length in F.
  pose proof (length_nonnil N1) as L1. pose proof (length_nonnil N2) as L2.
  assert (NE : t ++ u <> []) by (destruct t; [congruence|discriminate]).
  pose proof (mid_not_idle NE H) as id.
  assert (T1 : truthful SD t (u ++ []) Unknown) by (left; reflexivity).
  destruct (parses_more (fuel := fuel) H id N2 ltac:(congruence) T1 ltac:(lia)) as (s1 & X1 & X2 & X3).
  assert (E1 : feed (collect_decoder D) fuel (collect_new s) t [(length t, HUnknown); (0, HExact)]
     = (mkCollect s1 [] true, [], Ok tt)).
  { cbn [feed dec_idle collect_decoder collect_new cl_eos dec_decode cl_inner cl_items].
    rewrite firstn_all, skipn_all. destruct fuel as [|fuel]; [lia|]. cbn [collect_loop hint_eos].
    replace (0 <? length t) with true by lia. unfold try_decode. rewrite id.
    rewrite (slice_from_app [] t : slice_from 0 t = _). rewrite X1. rewrite X2.
    cbn [Nat.add]. rewrite skipn_all. reflexivity. }
  assert (T2 : truthful SD (u ++ []) [] (Finite 0)).
  { right; left. rewrite app_nil_r. split; [reflexivity|]. unfold fits, isize_max, u64_max, len in *. rewrite app_length in FT. cbn. lia. }
  pose proof (mid_not_idle N2 X3) as id1.
  destruct (parses_last (fuel := fuel) X3 id1 ltac:(congruence) T2 ltac:(rewrite app_nil_r; lia)) as (s2 & Y1 & Y2 & Y3).
  rewrite app_nil_r in Y1. cbn in Y2. destruct (parses_idle Y3 Y2) as (_ & _ & s3 & Y4 & _).
  exists (mkCollect s1 [] true), (mkCollect s1 [] false), (mkCollect s3 [i] true), (mkCollect s3 [] false).
  repeat split; auto.
  cbn [feed dec_idle collect_decoder cl_eos dec_decode cl_inner cl_items].
  rewrite firstn_all, skipn_all. destruct fuel as [|fuel]; [lia|]. cbn [collect_loop hint_eos].
  change (len []) with 0%N.
  replace (0 <? length u) with true by lia. unfold try_decode. rewrite id1.
  rewrite (slice_from_app [] u : slice_from 0 u = _). rewrite Y1, Y2, Y4. cbn [Nat.add].
  destruct fuel as [|fuel]; [lia|]. cbn [collect_loop]. rewrite Nat.ltb_irrefl. cbn. rewrite skipn_all. reflexivity.
Qed.
Print Assumptions C24_refuted.
Example C24_refuted_example : parses ex_two SD ex_two_ready ex_two_new ([xaa] ++ [xbb]) [xaa; xbb].
Proof. apply ex_two_parses. Qed.
