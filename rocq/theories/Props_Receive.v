(** * C94: receiving messages until the connection ends, wherever it is cut. *)
From Coq Require Import Lia ZifyBool ZifyNat ZifyN.
From Verif Require Import Receive TruncProofs IoProofs LinkProofs DuplexProofs Examples Props_Trunc.
Set Implicit Arguments.

Section Loop.
Context {T I : Type} (D : Decoder T I) (g : bool) (P : T -> Prop) (F : format I) (fuel cap : nat).
Hypotheses (HD : forall s w i, P s -> F w i -> cuts D SD g P s w i)
           (HB : forall s, P s -> dec_idle D s = false)
           (FU : cap < fuel) (CAP : 0 < cap) (CM : (N.of_nat cap <= isize_max)%N).
(** The tail of the stream: [t] arrives, [u] does not. *)
Variables (t u : list byte) (a : I).
Hypotheses (NU : u <> []) (CUT : F (t ++ u) a).

(** What is still to be decoded from [stream]: the items [pend], whose messages are [ws] (of the first a part may be
    decoded), then the tail. *)
Definition waits (st : MaybeEos T) (pend : list I) (ws : list (list byte)) (stream : list byte) : Prop :=
  dec_idle D (my_inner st) = false /\
  match pend, ws with
  | i :: is, _ :: ws => exists drest, cuts D SD g P (my_inner st) drest i /\ drest <> [] /\
      Forall2 (fun w i => F w i /\ w <> []) ws is /\ stream = drest ++ concat ws ++ t
  | _ :: _, [] | [], _ :: _ => False
  | [], [] => cuts D SD g P (my_inner st) (stream ++ u) a /\
      (if my_started st then t <> [] else stream = t)
  end.

Lemma waits_new : forall s is ws, P s -> Forall2 (fun w i => F w i /\ w <> []) ws is ->
  waits (maybe_new s) is ws (concat ws ++ t).
Proof.
  intros s is ws HP HW. split; [apply HB; exact HP|]. inversion HW as [|w i ws' is' [Fw Nw] HW' ]; subst; cbn.
  - split; [apply HD; auto|reflexivity].
  - exists w. rewrite <- app_assoc. auto.
Qed.

Lemma split_prefix : forall (x y p q : list byte), x ++ y = p ++ q ->
  (exists z, x = p ++ z /\ q = z ++ y) \/ (exists z, z <> [] /\ p = x ++ z /\ y = z ++ q).
Proof.
  induction x as [|b x IH]; intros y p q Q.
  - destruct p as [|c p]; [left; exists []; auto|]. right. exists (c :: p). split; [discriminate|auto].
  - destruct p as [|c p]; [left; exists (b :: x); auto|]. injection Q as <- Q.
    destruct (IH _ _ _ Q) as [(z & -> & ->)|(z & NZ & -> & ->)]; [left; exists z; auto|right; exists z; auto].
Qed.

(** One call of [decode]. *)
Lemma decode_once : forall st pend ws buf more e, waits st pend ws (buf ++ more) ->
  (e = Unknown \/ e = Finite 0 /\ more = []) -> length buf <= cap ->
  exists st' r, dec_decode (maybe_decoder D) fuel st buf e = (st', r) /\
  ((exists k, r = Ok k /\ k <= length buf /\ (buf <> [] -> 0 < k) /\
     ((dec_idle D (my_inner st') = false /\ k = length buf /\ waits st' pend ws (skipn k buf ++ more) /\
         (buf = [] -> e = Finite 0 -> pend = [] /\ t = [])) \/
      (dec_idle D (my_inner st') = true /\ buf <> [] /\ exists i is w ws' s2, pend = i :: is /\ ws = w :: ws' /\
         dec_finish (maybe_decoder D) st' = (s2, Ok i) /\ waits s2 is ws' (skipn k buf ++ more)))) \/
   (r = Err UnexpectedEos /\ pend = [] /\ t <> [])).
Proof.
  intros [s b] pend ws buf more e (ID & H) HE LB. cbn [my_inner my_started] in *.
  cbn [dec_decode maybe_decoder]. unfold maybe_decode. cbn [my_inner my_started].
  assert (TR : truthful SD buf more e).
  { destruct HE as [->|[-> ->]]; [left; reflexivity|]. right; left. split; [reflexivity|]. cbn.
    pose proof isize_u64; unfold len; lia. }
  assert (HI : forall w', hinted SD buf w' e).
  { intros w'. destruct HE as [->|[-> ->]]; cbn; auto. split; [pose proof isize_u64; unfold len; lia|congruence]. }
  destruct pend as [|i is], ws as [|w1 ws]; try contradiction.
  - destruct H as [C ST].
    destruct (negb b && (length buf =? 0) && is_reached e) eqn:Q.
    + apply andb_true_iff in Q as [Q R]. apply andb_true_iff in Q as [Q1 Q2].
      destruct b; [discriminate|]. destruct buf; [|discriminate]. cbn [app] in *.
      destruct HE as [->|[-> ->]]; [discriminate|]. cbn [app] in *.
      destruct (@cuts_cut _ _ _ _ _ _ _ _ fuel [] _ (eos_new false) C ID NU) as (s' & [(Y & ID' & C' & _)|(_ & r & Y & _)]);
        [exact Logic.I|cbn; lia| |discriminate].
      rewrite Y. eexists _, _. split; [reflexivity|]. left. exists 0. cbn. split; [reflexivity|].
      split; [lia|]. split; [congruence|]. left. split; [exact ID'|]. split; [reflexivity|]. split; [|auto].
      split; [exact ID'|]. cbn. split; [exact C'|exact ST].
    + rewrite <- app_assoc in C.
      destruct (@cuts_cut _ _ _ _ _ _ _ _ fuel buf _ e C ID) as (s' & [(Y & ID' & C' & LT)|(Y & _)]);
        [destruct more; [exact NU|discriminate]|apply HI|lia| |].
      * rewrite Y. eexists _, _. split; [reflexivity|]. left. exists (length buf). split; [reflexivity|].
        split; [lia|]. split; [destruct buf; cbn; [congruence|lia]|]. left. cbn [my_inner].
        split; [exact ID'|]. split; [reflexivity|]. split; [split; [exact ID'|]|].
        -- cbn [my_inner my_started]. rewrite skipn_all. cbn [app]. split; [exact C'|].
           destruct b; cbn [orb]; [exact ST|].
           destruct buf as [|x buf]; cbn; [exact ST|]. rewrite <- ST. discriminate.
        -- intros -> ->. destruct (LT eq_refl) as [_ Z]. congruence.
      * rewrite Y. eexists _, _. split; [reflexivity|]. right. split; [reflexivity|]. split; [reflexivity|].
        destruct b; [exact ST|]. rewrite <- ST. destruct buf as [|x buf]; [|discriminate].
        destruct HE as [->|[-> ->]]; [|discriminate Q].
        exfalso. destruct (@cuts_cut _ _ _ _ _ _ _ _ fuel [] _ Unknown C ID) as (s1 & [(Y1 & _)|(_ & r & Z & _)]);
          [destruct more; [exact NU|discriminate]|exact Logic.I|cbn; lia| |discriminate].
        rewrite Y1 in Y. discriminate.
  - destruct H as (drest & C & ND & HW & Q).
    assert (E' : negb b && (length buf =? 0) && is_reached e = false).
    { destruct HE as [->|[-> ->]]; [apply andb_false_r|].
      destruct buf as [|x buf]; [|cbn; rewrite andb_false_r; reflexivity].
      cbn in Q. destruct drest; [congruence|discriminate]. }
    rewrite E'. destruct (split_prefix _ _ _ _ Q) as [(extra & -> & Q2)|(w' & NW & -> & ->)].
    + destruct (parses_last (extra := extra) (rest := more) (fuel := fuel) (e := e) (cuts_parses C) ID) as (s' & Y & ID' & C'); [congruence|exact TR|lia|].
      cbn [done_idle] in ID'. destruct (parses_idle C' ID') as (_ & _ & s2 & Z & P2).
      rewrite Y. eexists _, _. split; [reflexivity|]. left. exists (length drest). split; [reflexivity|].
      split; [rewrite app_length; lia|]. split; [intros _; destruct drest; [congruence|cbn; lia]|].
      right. cbn [my_inner dec_finish maybe_decoder]. split; [exact ID'|].
      split; [destruct drest; [congruence|discriminate]|]. rewrite Z.
      exists i, is, w1, ws, (maybe_new s2). split; [reflexivity|]. split; [reflexivity|]. split; [reflexivity|].
      rewrite skipn_app_exact, <- Q2. apply waits_new; auto.
    + destruct (@cuts_cut _ _ _ _ _ _ _ _ fuel buf _ e C ID NW (HI _)) as (s' & [(Y & ID' & C' & LT)|(Y & r & Z & _)]);
        [lia| |].
      * rewrite Y. eexists _, _. split; [reflexivity|]. left. exists (length buf). split; [reflexivity|].
        split; [lia|]. split; [destruct buf; cbn; [congruence|lia]|]. left. cbn [my_inner].
        split; [exact ID'|]. split; [reflexivity|]. split; [split; [exact ID'|]|].
        -- cbn [my_inner]. rewrite skipn_all. cbn [app]. exists w'. auto.
        -- intros -> ->. destruct (LT eq_refl) as [_ X]. congruence.
      * exfalso. destruct HE as [->|[_ X]]; [discriminate|]. destruct w'; [congruence|discriminate].
Qed.

(** [fill]: the bytes move into the buffer; the end is noticed only at the end; a willing connection fills an empty
    buffer or shows its end. *)
Lemma fill_once : forall rb back plan rb' r' x, rb_ok rb -> rb_capacity rb = cap ->
  rb_fill rb (mkReader back plan) = (rb', r', x) -> ~ In RdZero plan -> (rb_state rb = StEos -> back = []) ->
  rb_ok rb' /\ rb_capacity rb' = cap /\ rb_content rb ++ back = rb_content rb' ++ rd_data r' /\
  (rb_state rb' = StEos -> rd_data r' = []) /\
  (x = Ok tt \/ exists e, e <> IoWouldBlock /\ In (RdErr e) plan /\ x = Err (reported_kind e)) /\
  (match plan with RdErr _ :: _ => False | _ => True end -> rb_content rb' = [] ->
     x = Ok tt -> rb_state rb' = StEos).
Proof.
  intros rb back plan rb' r' x OK CC H NZ EO. pose proof (fill_result _ _ OK H) as FR.
  destruct (fill_spec _ OK H) as (data & r1 & RD & OK' & C' & N' & _ & Cases).
  pose proof (reading_data RD) as QD. cbn in QD. pose proof (reading_plan RD) as PP. cbn in PP.
  split; [exact OK'|]. split; [congruence|].
  assert (QR : rd_data r1 = rd_data r' /\ (rb_state rb' = StEos -> rd_data r' = [])).
  { destruct Cases as [(_ & -> & _ & SE)|(L & o & e & R1 & E1 & _ & SE)].
    - split; [reflexivity|]. destruct data; [|congruence]. intro Z. cbn [app] in QD. rewrite <- QD. apply EO. congruence.
    - destruct (rd_read_data _ _ R1) as [QR _]. destruct o as [[|? ?]|ioe]; try discriminate E1.
      + split; [exact QR|]. intros _. unfold rd_read in R1. destruct (rd_plan r1) as [|[n| |e1] p] eqn:PL.
        * injection R1 as <- Z. cbn. destruct (rd_data r1); [apply skipn_nil|].
          destruct (rb_capacity rb - rb_tail rb - length data) eqn:X; [lia|discriminate].
        * injection R1 as <- Z. cbn. destruct (rd_data r1); [apply skipn_nil|].
          destruct (rb_capacity rb - rb_tail rb - length data) eqn:X; [lia|discriminate].
        * elim NZ. apply PP. left. reflexivity.
        * discriminate.
      + split; [exact QR|]. intro Z. rewrite SE in Z. destruct ioe; injection E1 as <-; discriminate. }
  destruct QR as [QR QE]. split; [rewrite N', <- app_assoc, <- QR, <- QD; reflexivity|].
  split; [exact QE|]. split; [exact FR|].
  intros W CE ->. rewrite N' in CE. apply app_eq_nil in CE. destruct CE as [C0 ->].
  assert (T0 : rb_tail rb = 0) by (apply Nat.eqb_eq, (content_empty OK); exact C0).
  assert (R0 : r1 = mkReader back plan) by (inversion RD; reflexivity). rewrite R0 in Cases.
  destruct Cases as [(L & _)|(L & o & e & R1 & E1 & _ & SE)]; [cbn in L; lia|].
  unfold rd_read in R1. cbn [rd_plan] in R1. destruct plan as [|[n| |e1] p]; [| |elim NZ; left; reflexivity|contradiction].
  - injection R1 as <- <-. destruct (firstn _ _); [|discriminate]. injection E1 as <-. exact SE.
  - injection R1 as <- <-. destruct (firstn _ _); [|discriminate]. injection E1 as <-. exact SE.
Qed.

Lemma receive_ok : forall plans rb st back got pend ws, true_end plans ->
  rb_ok rb -> rb_capacity rb = cap -> (rb_state rb = StEos -> back = []) ->
  waits st pend ws (rb_content rb ++ back) ->
  exists got' rest o, receive (maybe_decoder D) fuel plans rb st back got = (got', o) /\
    got ++ pend = got' ++ rest /\
    ((o = None /\ willing_turns plans <= length (rb_content rb ++ back)) \/
     (o = Some (Ok tt) /\ rest = [] /\ t = []) \/
     (o = Some (Err UnexpectedEos) /\ rest = [] /\ t <> []) \/
     (exists k, o = Some (Err k) /\ read_failed plans k)).
Proof.
  induction plans as [|plan plans IH]; intros rb st back got pend ws TE OK CC EO W.
  { exists got, pend, None. split; [reflexivity|]. split; [reflexivity|]. left. cbn. split; [reflexivity|lia]. }
  cbn [receive]. destruct (rb_fill rb (mkReader back plan)) as [[rb1 r1] x] eqn:FI.
  destruct (@fill_once _ _ _ _ _ _ OK CC FI (TE _ (or_introl eq_refl)) EO) as (OK1 & C1 & Q1 & EO1 & [->|(e & NW & IN & ->)] & WI).
  2:{ exists got, pend, (Some (Err (reported_kind e))). split; [reflexivity|]. split; [reflexivity|].
      right. right. right. exists (reported_kind e). split; [reflexivity|]. exists plan, e. cbn. auto. }
  unfold decode_from_read_buf. rewrite (window_some OK1). fold (rb_content rb1).
  assert (TE' : true_end plans) by (intros p IN; apply TE; right; exact IN).
  assert (RF : forall k, read_failed plans k -> read_failed (plan :: plans) k).
  { intros k (p & e & X1 & X2 & X3). exists p, e. cbn; auto. }
  rewrite Q1 in W |- *.
  destruct (@decode_once st pend ws (rb_content rb1) (rd_data r1) (eos_new (st_is_eos (rb_state rb1))) W)
    as (st' & r & Y & Cases).
  { destruct (rb_state rb1) eqn:SE; [left|right|left|left]; cbn; auto. }
  { unfold rb_content. rewrite stretch_length by apply OK1. pose proof OK1 as [L _]. unfold rb_capacity in C1. lia. }
  rewrite Y. destruct Cases as [(k & -> & LK & PK & Cases)|(-> & -> & NT)].
  2:{ exists got, [], (Some (Err UnexpectedEos)). cbn. auto 10. }
  destruct (consume_ok OK1 LK) as (OK2 & C2 & CC2 & S2).
  assert (LQ : length (rb_content (rb_consume rb1 k) ++ rd_data r1) + k = length (rb_content rb1 ++ rd_data r1)).
  { rewrite C2, !app_length, skipn_length. lia. }
  assert (WT : rb_content rb1 <> [] -> willing_turns plans <= length (rb_content (rb_consume rb1 k) ++ rd_data r1) ->
                willing_turns (plan :: plans) <= length (rb_content rb1 ++ rd_data r1)).
  { intros NE L. specialize (PK NE). unfold willing_turns in *. cbn [filter].
    destruct plan as [|[n| |e] p]; cbn [length]; lia. }
  cbn [dec_idle maybe_decoder]. destruct Cases as [(ID & _ & WW & NOP)|(ID & NB & i & is & w & ws' & s2 & -> & -> & FN & WW)]; rewrite ID.
  - destruct (rb_is_empty rb1 && st_is_eos (rb_state rb1)) eqn:OV.
    + apply andb_true_iff in OV as [E1 E2]. apply (content_empty OK1) in E1.
      destruct (NOP E1) as [-> ->]; [rewrite E2; reflexivity|].
      exists got, [], (Some (Ok tt)). split; [reflexivity|]. split; [reflexivity|]. auto.
    + destruct (IH (rb_consume rb1 k) st' (rd_data r1) got pend ws TE' OK2) as (got' & rest & o & X1 & X2 & X3).
      * congruence.
      * rewrite S2; exact EO1.
      * rewrite C2; exact WW.
      * exists got', rest, o. split; [exact X1|]. split; [exact X2|].
        destruct X3 as [[-> L]|[X3|[X3|(kk & X3 & X4)]]]; auto; [|right; right; right; eauto].
        left. split; [reflexivity|]. destruct (rb_content rb1) as [|y l] eqn:CE; [|apply WT; [discriminate|exact L]].
        assert (NWI : willing_turns (plan :: plans) = willing_turns plans).
        { unfold willing_turns. cbn [filter].
          destruct plan as [|[n| |e] p]; try reflexivity; exfalso;
            (apply andb_false_iff in OV as [OV|OV];
             [apply (content_empty OK1) in CE; unfold rb_is_empty in OV; congruence
             |rewrite (WI Logic.I eq_refl eq_refl) in OV; discriminate]). }
        rewrite NWI. lia.
  - rewrite FN. destruct (IH (rb_consume rb1 k) s2 (rd_data r1) (got ++ [i]) is ws' TE' OK2) as (got' & rest & o & X1 & X2 & X3).
    + congruence.
    + rewrite S2; exact EO1.
    + rewrite C2; exact WW.
    + exists got', rest, o. split; [exact X1|]. rewrite <- app_assoc in X2. split; [exact X2|].
      destruct X3 as [[-> L]|[X3|[X3|(kk & X3 & X4)]]];
        [left; split; [reflexivity|apply WT; [exact NB|exact L]]|right; left; exact X3|right; right; left; exact X3|].
      right. right. right. exists kk. split; [exact X3|apply RF; exact X4].
Qed.
End Loop.

(** ** C94: whole messages, then a cut *)

(** The stream is whole messages [ws] and then [t], the beginning of one more message (empty if the connection ends
    between two messages).  However the bytes arrive, and whenever reads would block:
    the items received are the first ones of those sent; the loop says "closed" only if the connection has ended
    between two messages and all items were received; it says [UnexpectedEos] only if the connection was cut inside a message and
    all whole messages before it were received; any other error is that of a failed read; and it has ended after
    at most as many willing turns as there are bytes, and one more. *)
Theorem C94_receive : forall A (c : codec A) prompt ws items t u a inner plans fuel,
  wf c -> reports prompt c -> delim c = SD -> dec_again c = true -> busy c = true ->
  Forall2 (fun w i => reads c w i /\ w <> []) ws items -> reads c (t ++ u) a -> u <> [] ->
  0 < length inner < fuel -> (N.of_nat (length inner) <= isize_max)%N -> true_end plans ->
  exists got o rest,
    receive (maybe_decoder (decoder c)) fuel plans (rb_new inner) (maybe_new (dec_fresh c)) (concat ws ++ t) []
      = (got, o) /\ items = got ++ rest /\
    ((o = None /\ willing_turns plans <= length (concat ws ++ t)) \/
     (o = Some (Ok tt) /\ rest = [] /\ t = []) \/
     (o = Some (Err UnexpectedEos) /\ rest = [] /\ t <> []) \/
     (exists k, o = Some (Err k) /\ read_failed plans k)).
Proof.
  intros A c g ws items t u a inner plans fuel WF RP DL AG BU HW R NU [I0 FU] IM TE.
  destruct (proj1 term_cuts A c WF g RP) as (_ & P & Q & H & H0 & HA & HB). rewrite DL in H.
  specialize (HA AG). specialize (HB BU).
  assert (H' : forall s w i, P s -> reads c w i -> cuts (decoder c) SD g P s w i).
  { intros s w i X Y. eapply cuts_post; [exact HA|]. apply H; auto. }
  assert (OK : rb_ok (rb_new inner)) by (split; [cbn; lia|right; auto]).
  destruct (@receive_ok _ _ (decoder c) g P (reads c) fuel (length inner) H' HB FU I0 IM t u a NU R plans (rb_new inner)
              (maybe_new (dec_fresh c)) (concat ws ++ t) [] items ws TE OK eq_refl) as (got & rest & o & X1 & X2 & X3).
  - discriminate.
  - cbn [app]. apply (@waits_new _ _ _ _ _ _ H' HB); auto.
  - exists got, o, rest. auto.
Qed.
Print Assumptions C94_receive.

(** So with reads that never fail (they may be short, and may often enough block): every whole message is
    received, and the two ways to end are told apart. *)
Corollary C94_decides : forall A (c : codec A) prompt ws items t u a inner plans fuel,
  wf c -> reports prompt c -> delim c = SD -> dec_again c = true -> busy c = true ->
  Forall2 (fun w i => reads c w i /\ w <> []) ws items -> reads c (t ++ u) a -> u <> [] ->
  0 < length inner < fuel -> (N.of_nat (length inner) <= isize_max)%N -> true_end plans ->
  (forall k, ~ read_failed plans k) -> length (concat ws ++ t) < willing_turns plans ->
  receive (maybe_decoder (decoder c)) fuel plans (rb_new inner) (maybe_new (dec_fresh c)) (concat ws ++ t) []
    = (items, Some (match t with [] => Ok tt | _ => Err UnexpectedEos end)).
Proof.
  intros A c g ws items t u a inner plans fuel WF RP DL AG BU HW R NU I0 IM TE NF LW.
  destruct (@C94_receive A c g ws items t u a inner plans fuel) as (got & o & rest & -> & Q & X); auto.
  destruct X as [(_ & L)|[(-> & -> & ->)|[(-> & -> & NT)|(k & _ & X)]]]; [lia| | |elim (NF k); exact X];
    rewrite app_nil_r in Q; subst; [reflexivity|]. destruct t; [congruence|reflexivity].
Qed.
Print Assumptions C94_decides.

(** Without [maybe_eos()] the two ways are not told apart: the same loop reports [UnexpectedEos] at the regular end. *)
Theorem C94_without_refuted : exists inner plans,
  true_end plans /\ (forall k, ~ read_failed plans k) /\ 4 < willing_turns plans /\
  receive (decoder (CU NU16be)) 99 plans (rb_new inner) (dec_fresh (CU NU16be)) [x00; x01; x00; x02] []
    = ([1%N; 2%N], Some (Err UnexpectedEos)).
Proof.
  exists [x00; x00; x00], [[]; []; []; []; []]. split; [|split; [|split]].
  - intros plan IN Z. cbn in IN. repeat (destruct IN as [<-|IN]; [destruct Z|]). destruct IN.
  - intros k (plan & e & IN & Z & _). cbn in IN. repeat (destruct IN as [<-|IN]; [destruct Z|]). destruct IN.
  - cbn. lia.
  - vm_compute. reflexivity.
Qed.
Print Assumptions C94_without_refuted.

(** Messages of a number, a sign and records; a buffer of 3 bytes; the connection is cut in the second message, or
    ends after it. *)
Definition ex_plans : list (list RdPlan) :=
  [[RdErr IoWouldBlock]; [RdSome 0; RdErr IoWouldBlock]; []; [RdSome 1]; []; []; []; []; []; []; []; []; []; []; []; []; []; []].
Definition ex_m1 : list byte := [x01; x02; xff; x02; x07; xaa; xbb; x08; xcc; xdd].
Definition ex_m2 : list byte := [x00; x03; x01; x00].
Definition ex_i1 : N * Z * list (N * list byte) := (258%N, (-1)%Z, [(7%N, [xaa; xbb]); (8%N, [xcc; xdd])]).
Definition ex_i2 : N * Z * list (N * list byte) := (3%N, 1%Z, []).
Example C94_example : wf ex_fix /\ reports true ex_fix /\ delim ex_fix = SD /\ dec_again ex_fix = true /\
  busy ex_fix = true /\ reads ex_fix ex_m1 ex_i1 /\ reads ex_fix ex_m2 ex_i2 /\
  true_end ex_plans /\ length (ex_m1 ++ firstn 2 ex_m2) < willing_turns ex_plans /\
  receive (maybe_decoder (decoder ex_fix)) 99 ex_plans (rb_new [x00; x00; x00]) (maybe_new (dec_fresh ex_fix))
    (ex_m1 ++ firstn 2 ex_m2) [] = ([ex_i1], Some (Err UnexpectedEos)) /\
  receive (maybe_decoder (decoder ex_fix)) 99 ex_plans (rb_new [x00; x00; x00]) (maybe_new (dec_fresh ex_fix))
    (ex_m1 ++ ex_m2) [] = ([ex_i1; ex_i2], Some (Ok tt)).
Proof.
  pose proof C52_example as (W & RP & R1 & _).
  split; [exact W|]. split; [exact RP|]. split; [reflexivity|]. split; [reflexivity|]. split; [reflexivity|].
  split; [exact R1|]. split.
  - cbn. split; [vm_compute; discriminate|]. exists [x00; x03; x01], [x00]. split; auto. split.
    + split; [vm_compute; discriminate|]. exists [x00; x03], [x01]. repeat split; auto; try (vm_compute; congruence).
    + split; [vm_compute; discriminate|]. exists [x00], []. repeat split; auto. exists []. split; auto.
  - split; [|split; [cbn; lia|split; vm_compute; reflexivity]].
    intros plan IN Z. cbn in IN. repeat (destruct IN as [<-|IN]; [cbn in Z; intuition discriminate|]). destruct IN.
Qed.
