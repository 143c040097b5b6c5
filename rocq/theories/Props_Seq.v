(** * Theorems about single combinators over arbitrary parts: C21, C22, C23, C27, C28, C29, C30. *)
From Coq Require Import Lia ZifyBool ZifyNat ZifyN.
From Verif Require Import ObserveProofs Props_Comb.
Set Implicit Arguments.

(** ** C21: and_then *)

(** Header bytes [w0] with item [i0], then bytes [w1] that the decoder made from [i0] decodes. *)
Theorem C21_and_then : forall S0 S1 I0 I1 (D0 : Decoder S0 I0) (D1 : Decoder S1 I1) (f : I0 -> S1)
    m (P0 : S0 -> Prop) (P1 : S1 -> Prop) s0 w0 i0 w1 i1,
  parses D0 SD P0 s0 w0 i0 -> w0 <> [] ->
  parses D1 m P1 (f i0) w1 i1 -> (m = ToEos -> dec_idle D1 (f i0) = false) ->
  (len (w0 ++ w1) <= isize_max)%N ->
  delivers (and_then_decoder D0 D1 f) m (and_then_new s0) (w0 ++ w1) i1
    (fun st => exists s0', st = and_then_new s0' /\ P0 s0').
Proof.
  intros S0 S1 I0 I1 D0 D1 f m P0 P1 s0 w0 i0 w1 i1 H0 NE H1 ID L. apply parses_delivers.
  eapply parses_post; [|eapply and_then_parses; eauto].
  intros [a b] (A & B). cbn in *. subst. exists a. auto.
Qed.
Print Assumptions C21_and_then.
(** The header is a number, the body is that many bytes. *)
Definition ex_body (h : list byte) : Length RemDec :=
  length_new rem_dec_new (match h with [_; b] => Byte.to_N b | _ => 0 end).
Example C21_example :
  parses ex_two SD ex_two_ready ex_two_new [x00; x03] [x00; x03] /\
  parses (length_decoder rem_decoder) SD (fun _ => True) (ex_body [x00; x03])
    [xaa; xbb; xcc] [xaa; xbb; xcc].
Proof.
  split; [apply ex_two_parses|].
  change (ex_body [x00; x03]) with (length_new rem_dec_new (len [xaa; xbb; xcc])).
  eapply parses_post; [|eapply length_parses, ex_rest_parses]. auto.
Qed.
(** The empty header is excluded: then the loops of [decode_exact] and [collect] rely on the
    decoder being idle, but [and_then] is not idle before its first [decode] call.  With that call
    made the body is decoded all the same. *)
Theorem C21_empty_header : forall S0 S1 I0 I1 (D0 : Decoder S0 I0) (D1 : Decoder S1 I1)
    (f : I0 -> S1) s0 s0' i0 fuel buf e,
  dec_idle D0 s0 = true -> dec_finish D0 s0 = (s0', Ok i0) -> dec_idle D1 (f i0) = false ->
  exists st, dec_decode (and_then_decoder D0 D1 f) fuel (and_then_new s0) buf e
      = (st, snd (dec_decode D1 fuel (f i0) buf e)) /\
    st = mkAndThen s0' (Some (fst (dec_decode D1 fuel (f i0) buf e))).
Proof.
  intros S0 S1 I0 I1 D0 D1 f s0 s0' i0 fuel buf e id FI id1. cbn [dec_decode and_then_decoder].
  unfold and_then_decode. cbn [at_inner1 and_then_new at_inner0]. unfold try_decode at 1. rewrite id, FI.
  unfold and_then_body, try_decode. rewrite id1. unfold slice_from. cbn [Nat.leb skipn].
  destruct (dec_decode D1 fuel (f i0) buf e) as [s1 [k|k| |]]; cbn [fst snd]; eauto.
  destruct (dec_idle D1 s1); eauto.
Qed.
Print Assumptions C21_empty_header.

(** ** C22: collectn(n) *)
Theorem C22_collectn : forall S I (D : Decoder S I) (fmt : format I) (P : S -> Prop) s ws is,
  decodes D SD fmt P P -> (forall w i, fmt w i -> w <> []) -> P s ->
  Forall2 fmt ws is -> (len (concat ws) <= isize_max)%N ->
  delivers (collectn_decoder D) SD (collectn_new s (length is)) (concat ws) is
    (fun st => exists s', st = collectn_new s' 0 /\ P s').
Proof.
  intros S I D fmt P s ws is DEC NE HP F L. apply parses_delivers.
  eapply parses_post; [|eapply collectn_parses; eauto; exists ws; auto].
  intros [a b c] (X & Y & Z). cbn in *. subst. exists a. auto.
Qed.
Print Assumptions C22_collectn.
Definition ex_two_fmt : format (list byte) := fun w i => length w = 2 /\ i = w.
Example C22_example :
  decodes ex_two SD ex_two_fmt ex_two_ready ex_two_ready /\
  (forall w i, ex_two_fmt w i -> w <> []) /\ ex_two_ready ex_two_new /\
  Forall2 ex_two_fmt [[x01; x02]; [x03; x04]; [x05; x06]] [[x01; x02]; [x03; x04]; [x05; x06]].
Proof.
  split; [apply ex_two_decodes|]. split; [|split; [apply ex_two_is_ready|repeat constructor]].
  intros w i (L & _) ->. discriminate.
Qed.
(** [set_remaining_items] rearms it for the next [n] items. *)
Theorem C22_rearm : forall S I (s : S) n,
  collectn_set (collectn_new (I := I) s 0) n = collectn_new s n.
Proof. reflexivity. Qed.
Print Assumptions C22_rearm.

(** ** C23: collect() *)
Theorem C23_collect : forall S I (D : Decoder S I) (fmt : format I) (P : S -> Prop) s ws is,
  decodes D SD fmt P P -> (forall w i, fmt w i -> w <> []) -> (exists w i, fmt w i) -> P s ->
  Forall2 fmt ws is -> (len (concat ws) <= isize_max)%N ->
  delivers (collect_decoder D) ToEos (collect_new s) (concat ws) is
    (fun st => exists s', st = collect_new s' /\ P s').
Proof.
  intros S I D fmt P s ws is DEC NE INH HP F L. apply parses_delivers.
  eapply parses_post; [|eapply collect_parses; eauto; exists ws; auto].
  intros [a b c] (X & Y & Z). cbn in *. subst. exists a. auto.
Qed.
Print Assumptions C23_collect.
Example C23_example : (exists w i, ex_two_fmt w i) /\
  Forall2 ex_two_fmt [[x01; x02]; [x03; x04]] [[x01; x02]; [x03; x04]].
Proof. split; [exists [x01; x02], [x01; x02]; split; reflexivity|repeat constructor]. Qed.

(** ** C27: omit() and optional() *)
Theorem C27_omit_no : forall S I (D : Decoder S I) m (Post : S -> Prop) s w i,
  parses D m Post s w i ->
  delivers (omit_decoder D) m (mkOmit s false) w (Some i)
    (fun st => exists s', st = mkOmit s' false /\ Post s').
Proof.
  intros S I D m Post s w i H. apply parses_delivers.
  eapply parses_post; [|apply omit_false_parses; exact H].
  intros [a b] (X & Y). cbn in *. subst. exists a. auto.
Qed.
Print Assumptions C27_omit_no.
Theorem C27_omit_yes : forall S I (D : Decoder S I) s,
  dec_idle (omit_decoder D) (mkOmit s true) = true /\
  (forall fuel buf e, dec_decode (omit_decoder D) fuel (mkOmit s true) buf e = (mkOmit s true, Ok 0)) /\
  dec_finish (omit_decoder D) (mkOmit s true) = (mkOmit s true, Ok None) /\
  dec_req (omit_decoder D) (mkOmit s true) = Ok (Finite 0).
Proof. repeat split. Qed.
Print Assumptions C27_omit_yes.
Theorem C27_optional_some : forall S I (E : Encoder S I) (fmt : format I) (P : S -> Prop) s w i,
  rests E P -> encodes E fmt P P -> P s -> fmt w i -> sends (optional_encoder E) s (Some i) w P.
Proof.
  intros S I E fmt P s w i RS H HP F. eapply encodes_sends; [eapply optional_encodes; eauto|..]; auto.
Qed.
Print Assumptions C27_optional_some.
Theorem C27_optional_none : forall S I (E : Encoder S I) (fmt : format I) (P : S -> Prop) s,
  rests E P -> encodes E fmt P P -> P s -> sends (optional_encoder E) s None [] P.
Proof.
  intros S I E fmt P s RS H HP.
  eapply encodes_sends; [exact (optional_encodes RS H)|exact HP|reflexivity].
Qed.
Print Assumptions C27_optional_none.
(** The round trip: what [optional()] sends for an option, [omit(item is None)] reads back. *)
Theorem C27_round_trip : forall SE SD' I (E : Encoder SE I) (D : Decoder SD' I) (fmt : format I)
    (P : SE -> Prop) (Q Q' : SD' -> Prop) se sd w (o : option I),
  rests E P -> encodes E fmt P P -> P se ->
  decodes D SD fmt Q Q' -> Q sd ->
  match o with Some i => fmt w i | None => w = [] end ->
  sends (optional_encoder E) se o w P /\
  delivers (omit_decoder D) SD (mkOmit sd (match o with None => true | Some _ => false end)) w o
    (fun _ => True).
Proof.
  intros SE SD' I E D fmt P Q Q' se sd w o RS HE HP HD HQ F. split.
  - eapply encodes_sends; [eapply optional_encodes; eauto|..]; auto.
  - apply parses_delivers. destruct o as [i|].
    + eapply parses_post; [|apply omit_false_parses, (HD _ _ _ HQ F)]. auto.
    + subst w. eapply parses_post; [|apply omit_true_parses]. auto.
Qed.
Print Assumptions C27_round_trip.
Example C27_example :
  rests (bytes_encoder vec_box) (@bytes_eidle (list byte)) /\
  encodes (bytes_encoder vec_box) ex_two_fmt (@bytes_eidle (list byte)) (@bytes_eidle (list byte)) /\
  decodes ex_two SD ex_two_fmt ex_two_ready ex_two_ready /\ ex_two_fmt [x01; x02] [x01; x02].
Proof.
  split; [apply bytes_rests|]. split; [|split; [apply ex_two_decodes|split; reflexivity]].
  intros w i (L & ->). apply (@bytes_encodes _ vec_box). split; auto. unfold len, isize_max. lia.
Qed.

(** ** C28: peekable() *)

(** In every state: idle iff there is something to peek at, and that is what comes next; until it is taken
    [decode] takes nothing and leaves it alone. *)
Theorem C28_peek_is_next : forall S I (D : Decoder S I) (st : Peekable S I),
  (dec_idle (peek_decoder D) st = true <-> peek st <> None) /\
  (forall i, peek st = Some i ->
     (forall fuel buf e, dec_decode (peek_decoder D) fuel st buf e = (st, Ok 0)) /\
     exists st', dec_finish (peek_decoder D) st = (st', Ok i) /\ peek st' = None) /\
  (peek st = None -> dec_finish (peek_decoder D) st = (st, Err IncompleteDecoding)).
Proof.
  intros S I D [s [i|]]; cbn; (split; [|split]).
  - split; congruence.
  - intros j [= <-]. eauto.
  - discriminate.
  - split; congruence.
  - discriminate.
  - auto.
Qed.
Print Assumptions C28_peek_is_next.
(** During the decoding of an item: nothing to peek at before its last byte, then the item. *)
Theorem C28_peekable : forall S I (D : Decoder S I) m (Post : S -> Prop) s w i fuel sched extra,
  dec_idle D s = false -> parses D m Post s w i ->
  (m <> SD -> extra = [] /\ ends sched) ->
  (len (w ++ extra) <= u64_max)%N -> length (w ++ extra) < fuel ->
  exists st,
    feed (peek_decoder D) fuel (peek_new s) (w ++ extra) sched
      = (st, skipn (min (length w) (offered sched)) (w ++ extra), Ok tt) /\
    (completes m w sched -> peek st = Some i) /\
    (~ completes m w sched -> peek st = None) /\
    (completes m w sched ->
     exists s', dec_finish (peek_decoder D) st = (peek_new s', Ok i) /\ Post s').
Proof.
  intros S I D m Post s w i fuel sched extra id H MX L F.
  destruct (parses_delivers (peek_parses id H) MX L F) as (st & X1 & X2 & X3).
  specialize (X2 eq_refl). destruct (C28_peek_is_next D st) as (Y1 & Y2 & Y3).
  exists st. split; auto. split; [|split].
  - intros C. apply X2 in C. destruct (X3 C) as (st' & Z & _).
    destruct (peek st) as [j|] eqn:PK; [|apply Y1 in C; congruence].
    destruct (Y2 j eq_refl) as (_ & st'' & Z' & _). congruence.
  - intros NC. destruct (peek st) as [j|] eqn:PK; auto. exfalso. apply NC, X2, Y1. discriminate.
  - intros C. apply X2 in C. destruct (X3 C) as ([a b] & Z & P1 & P2). cbn in P1, P2. subst b.
    exists a. auto.
Qed.
Print Assumptions C28_peekable.
Example C28_example : dec_idle ex_two ex_two_new = false /\
  parses ex_two SD ex_two_ready ex_two_new [x01; x02] [x01; x02].
Proof. split; [reflexivity|apply ex_two_parses]. Qed.

(** ** C29: maybe_eos() *)

(** Otherwise as the inner decoder. *)
Theorem C29_maybe_transparent : forall S I (D : Decoder S I) m (Post : S -> Prop) s w i,
  (m = ToEos -> w <> []) -> parses D m Post s w i ->
  delivers (maybe_decoder D) m (maybe_new s) w i (fun st => exists s', st = maybe_new s' /\ Post s').
Proof.
  intros S I D m Post s w i M H. apply parses_delivers.
  eapply parses_post; [|apply maybe_parses; eauto].
  intros [a b] (X & Y). cbn in *. subst. exists a. auto.
Qed.
Print Assumptions C29_maybe_transparent.
(** After any calls, the item has been started iff bytes were consumed for it. *)
Theorem C29_maybe_started : forall S I (D : Decoder S I) s t st,
  decode_calls (maybe_decoder D) (maybe_new s) t st ->
  my_started st = negb (t =? 0) /\
  (forall st' r, dec_finish (maybe_decoder D) st = (st', r) -> exists s', st' = maybe_new s').
Proof.
  intros S I D s t st H. split.
  - revert t st H. apply decode_calls_inv; [reflexivity|].
    intros t st fuel buf e st2 r HA X. cbn [dec_decode maybe_decoder] in X. unfold maybe_decode in X.
    destruct (dec_decode D fuel (my_inner st) buf _) as [s' [k|k| |]];
      injection X as <- <-; cbn [my_started size_of]; rewrite ?Nat.add_0_r; auto.
    rewrite HA. lia.
  - intros st' r X. cbn in X. destruct (dec_finish D (my_inner st)) as [s' r'].
    injection X as <- _. exists s'. reflexivity.
Qed.
Print Assumptions C29_maybe_started.
(** What the inner decoder is told: "not the end" if the end comes with an empty buffer before
    the first byte of an item, what the caller said in all other cases. *)
Theorem C29_maybe_call : forall S I (D : Decoder S I) fuel st buf e,
  let e' := if my_started st then e
            else match buf with [] => if is_reached e then eos_new false else e | _ => e end in
  exists st', dec_decode (maybe_decoder D) fuel st buf e
    = (st', snd (dec_decode D fuel (my_inner st) buf e')) /\
    my_inner st' = fst (dec_decode D fuel (my_inner st) buf e').
Proof.
  intros S I D fuel st buf e e'. cbn [dec_decode maybe_decoder]. unfold maybe_decode.
  replace (if negb (my_started st) && (length buf =? 0) && is_reached e then eos_new false else e)
    with e'.
  - destruct (dec_decode D fuel (my_inner st) buf e') as [s' [k|k| |]]; cbn; eauto.
  - subst e'. destruct (my_started st), buf; cbn; auto.
Qed.
Print Assumptions C29_maybe_call.
(** So that between items the end of the stream does no harm: nothing is consumed, and the decoder
    is still ready for the whole item. *)
Theorem C29_maybe_no_op : forall S I (D : Decoder S I) (P : S -> Prop) s w i fuel,
  parses D SD P s w i -> dec_idle D s = false -> w <> [] -> 0 < fuel ->
  exists s', dec_decode (maybe_decoder D) fuel (maybe_new s) [] (eos_new true)
      = (maybe_new s', Ok 0) /\ parses D SD P s' w i.
Proof.
  intros S I D P s w i fuel H id NE F. cbn [dec_decode maybe_decoder]. unfold maybe_decode.
  cbn [my_started maybe_new negb length Nat.eqb andb my_inner].
  change (is_reached (eos_new true)) with true. cbv iota.
  destruct (parses_more (buf := []) (w' := w) (extra := []) (fuel := fuel) (e := eos_new false) H id)
    as (s' & X & _ & H'); [exact NE|congruence|left; reflexivity|exact F|].
  rewrite X. exists s'. auto.
Qed.
Print Assumptions C29_maybe_no_op.
Example C29_example : dec_decode ex_two 9 ex_two_new [] (eos_new true) = (ex_two_new, Err UnexpectedEos) /\
  dec_decode (maybe_decoder ex_two) 9 (maybe_new ex_two_new) [] (eos_new true) = (maybe_new ex_two_new, Ok 0).
Proof. split; reflexivity. Qed.

(** ** C30: the map family *)

(** Histories of arbitrary calls return the same, up to the function. *)
Definition obs_map {I T} (f : res I -> res T) (b : dec_obs I) : dec_obs T :=
  match b with
  | ObFinish r => ObFinish (f r)
  | ObDecode r => ObDecode r
  | ObReq r => ObReq r
  | ObIdle b => ObIdle b
  end.
Theorem C30_map : forall S I T (D : Decoder S I) (f : I -> T) ops s,
  dec_trace (map_decoder D f) s ops
    = map (obs_map (fun r => match r with Ok i => Ok (f i) | Err k => Err k | Panic => Panic
                                        | OutOfFuel => OutOfFuel end)) (dec_trace D s ops).
Proof.
  intros S I T D f. induction ops as [|[fuel buf e| | |] ops IH]; intros s; auto;
    cbn [dec_trace dec_do map_decoder dec_decode dec_finish dec_req dec_idle].
  - destruct (dec_decode D fuel s buf e) as [s' r]. cbn. now rewrite IH.
  - destruct (dec_finish D s) as [s' r]. cbn. rewrite IH. try (f_equal; destruct r; reflexivity).
  - cbn. now rewrite IH.
  - cbn. now rewrite IH.
Qed.
Print Assumptions C30_map.
Theorem C30_try_map : forall S I T (D : Decoder S I) (f : I -> T + ErrorKind) ops s,
  dec_trace (try_map_decoder D f) s ops
    = map (obs_map (fun r => match r with
                             | Ok i => match f i with inl t => Ok t | inr k => Err k end
                             | Err k => Err k | Panic => Panic | OutOfFuel => OutOfFuel end))
          (dec_trace D s ops).
Proof.
  intros S I T D f. induction ops as [|[fuel buf e| | |] ops IH]; intros s; auto;
    cbn [dec_trace dec_do try_map_decoder dec_decode dec_finish dec_req dec_idle].
  - destruct (dec_decode D fuel s buf e) as [s' r]. cbn. now rewrite IH.
  - destruct (dec_finish D s) as [s' r]. cbn. rewrite IH. try (f_equal; destruct r; reflexivity).
  - cbn. now rewrite IH.
  - cbn. now rewrite IH.
Qed.
Print Assumptions C30_try_map.
Definition err_map {A} (f : ErrorKind -> ErrorKind) (r : res A) : res A :=
  match r with Err k => Err (f k) | Ok a => Ok a | Panic => Panic | OutOfFuel => OutOfFuel end.
Theorem C30_map_err_decoder : forall S I (D : Decoder S I) f ops s,
  dec_trace (map_err_decoder D f) s ops
    = map (fun b => match b with
                    | ObDecode r => ObDecode (err_map f r)
                    | ObFinish r => ObFinish (err_map f r)
                    | b => b end) (dec_trace D s ops).
Proof.
  intros S I D f. induction ops as [|[fuel buf e| | |] ops IH]; intros s; auto;
    cbn [dec_trace dec_do map_err_decoder dec_decode dec_finish dec_req dec_idle].
  - destruct (dec_decode D fuel s buf e) as [s' r]. cbn. rewrite IH. try (f_equal; destruct r; reflexivity).
  - destruct (dec_finish D s) as [s' r]. cbn. rewrite IH. try (f_equal; destruct r; reflexivity).
  - cbn. now rewrite IH.
  - cbn. now rewrite IH.
Qed.
Print Assumptions C30_map_err_decoder.
(** Encoders: a history with items [t] is the history of the inner encoder with the items [f t]. *)
Definition op_map {T I} (f : T -> I) (o : enc_op T) : enc_op I :=
  match o with
  | OpStart fuel t => OpStart fuel (f t)
  | OpEncode fuel buf e => OpEncode fuel buf e
  | OpEReq => OpEReq
  | OpEIdle => OpEIdle
  end.
Theorem C30_map_from : forall S I T (E : Encoder S I) (f : T -> I) ops s,
  enc_trace (map_from_encoder E f) s ops = enc_trace E s (map (op_map f) ops).
Proof.
  intros S I T E f. induction ops as [|[fuel buf e|fuel t| |] ops IH]; intros s; auto;
    cbn [enc_trace enc_do map_from_encoder enc_encode enc_start enc_req enc_idle map op_map].
  - destruct (enc_encode E fuel s buf e) as [[s' b] r]. now rewrite IH.
  - destruct (enc_start E fuel s (f t)) as [s' r]. now rewrite IH.
  - now rewrite IH.
  - now rewrite IH.
Qed.
Print Assumptions C30_map_from.
(** [try_map_from]: an item on which [f] fails is answered with its error, as if the call had not
    happened; [merge] interleaves these answers with those of the inner encoder. *)
Fixpoint try_ops {T I} (f : T -> I + ErrorKind) (ops : list (enc_op T)) : list (enc_op I) :=
  match ops with
  | [] => []
  | OpStart fuel t :: ops' =>
      match f t with inl i => OpStart fuel i :: try_ops f ops' | inr _ => try_ops f ops' end
  | OpEncode fuel buf e :: ops' => OpEncode fuel buf e :: try_ops f ops'
  | OpEReq :: ops' => OpEReq :: try_ops f ops'
  | OpEIdle :: ops' => OpEIdle :: try_ops f ops'
  end.
Fixpoint merge {T I} (f : T -> I + ErrorKind) (ops : list (enc_op T)) (obs : list enc_obs)
    : list enc_obs :=
  match ops with
  | [] => []
  | o :: ops' =>
      match o with
      | OpStart _ t =>
          match f t with
          | inr k => ObStart (Err k) :: merge f ops' obs
          | inl _ => match obs with b :: obs' => b :: merge f ops' obs' | [] => [] end
          end
      | _ => match obs with b :: obs' => b :: merge f ops' obs' | [] => [] end
      end
  end.
Theorem C30_try_map_from : forall S I T (E : Encoder S I) (f : T -> I + ErrorKind) ops s,
  enc_trace (try_map_from_encoder E f) s ops = merge f ops (enc_trace E s (try_ops f ops)).
Proof.
  intros S I T E f. induction ops as [|[fuel buf e|fuel t| |] ops IH]; intros s; auto;
    cbn [enc_trace enc_do try_map_from_encoder enc_encode enc_start enc_req enc_idle try_ops merge].
  - destruct (enc_encode E fuel s buf e) as [[s' b] r]. now rewrite IH.
  - destruct (f t) as [i|k]; cbn [enc_trace enc_do].
    + destruct (enc_start E fuel s i) as [s' r]. now rewrite IH.
    + now rewrite IH.
  - now rewrite IH.
  - now rewrite IH.
Qed.
Print Assumptions C30_try_map_from.
Theorem C30_map_err_encoder : forall S I (E : Encoder S I) f ops s,
  enc_trace (map_err_encoder E f) s ops
    = map (fun b => match b with
                    | ObEncode buf r => ObEncode buf (err_map f r)
                    | ObStart r => ObStart (err_map f r)
                    | b => b end) (enc_trace E s ops).
Proof.
  intros S I E f. induction ops as [|[fuel buf e|fuel t| |] ops IH]; intros s; auto;
    cbn [enc_trace enc_do map_err_encoder enc_encode enc_start enc_req enc_idle].
  - destruct (enc_encode E fuel s buf e) as [[s' b] r]. cbn. rewrite IH. try (f_equal; destruct r; reflexivity).
  - destruct (enc_start E fuel s t) as [s' r]. cbn. rewrite IH. try (f_equal; destruct r; reflexivity).
  - cbn. now rewrite IH.
  - cbn. now rewrite IH.
Qed.
Print Assumptions C30_map_err_encoder.
(** A history with a failing decode, an item, and the error mapped. *)
Example C30_example :
  dec_trace (map_err_decoder (map_decoder ex_two (@length byte)) (fun _ => Other)) ex_two_new
    [OpFinish; OpDecode 9 [x01] Unknown; OpReq; OpDecode 9 [x02; x03] Unknown; OpIdle; OpFinish;
     OpDecode 9 [x01] (eos_new true)]
  = [ObFinish (Err Other); ObDecode (Ok 1); ObReq (Ok (Finite 1)); ObDecode (Ok 1); ObIdle true;
     ObFinish (Ok 2); ObDecode (Err Other)].
Proof. reflexivity. Qed.
