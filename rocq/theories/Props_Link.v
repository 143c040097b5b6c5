(** * Theorems about a sender and a receiver connected by a stream: C46. *)
From Coq Require Import Lia ZifyBool ZifyNat ZifyN.
From Verif Require Import LinkProofs Universe UniverseProofs CodecProofs Examples IoProofs Lib.
Set Implicit Arguments.

(** The codec can be used for a sequence of messages: it is self-delimiting, its encoder and its
    decoder can be used again, and the decoder does not start out with a complete item; there
    is something to send, and the encodings are not empty. *)
Definition messages {A} (c : codec A) (ws : list (list byte)) (items : list A) : Prop :=
  wf c /\ delim c = SD /\ dec_again c = true /\ enc_again c = true /\ busy c = true /\
  Forall2 (fun w a => wire c w a /\ w <> []) ws items /\ items <> [] /\
  (len (concat ws) <= u64_max)%N.

(** Both sides are new, nothing is on its way. *)
Definition fresh_link {A} (c : codec A) (items : list A) (winner rinner : list byte) :=
  mkLink items (enc_fresh c) (wb_new winner) [] (rb_new rinner) (dec_fresh c) [].

Lemma link_start : forall A (c : codec A) ws items winner rinner, messages c ws items ->
  exists f0, forall fuel, f0 < fuel ->
  exists F Pe Pd w0 i0,
    decodes (decoder c) SD F Pd Pd /\ (forall s, Pd s -> dec_idle (decoder c) s = false) /\
    rests (encoder c) Pe /\ length rinner < fuel /\ (F w0 i0 /\ w0 <> []) /\
    inv (encoder c) (decoder c) F Pe Pd fuel (length winner) (length rinner) items
      (4 * length (concat ws) + 2 * length items)
      (fresh_link c items winner rinner).
Proof.
  intros A c ws items winner rinner (WF & SDc & DA & EA & BU & HW & NE & LN).
  pose proof (proj1 term_dec_ok A c WF) as DO. unfold code_dec_ok in DO. rewrite DA, SDc, BU in DO.
  destruct (dec_ok_again DO) as (Pd & HD & D0 & HB). specialize (HB (or_introl eq_refl)).
  pose proof (proj1 term_enc_ok A c WF) as EO. unfold code_enc_ok in EO. rewrite EA in EO.
  destruct (enc_ok_again EO) as (Pe & HE & E0 & RS).
  assert (K : exists f0, forall fuel, f0 < fuel ->
            Forall2 (sends_as (encoder c) Pe fuel (length winner)) ws items).
  { clear - HW HE. induction HW as [|w a ws items [W N] HW (f0 & IH)].
    - exists 0. intros. constructor.
    - destruct (HE w a W) as (f1 & AC). exists (f0 + f1 + length winner). intros fuel LF.
      constructor; [|apply IH; lia]. exists f1. split; [lia|exact AC]. }
  destruct K as (f0 & K). exists (f0 + length rinner). intros fuel LF.
  destruct HW as [|w a ws items [W N] HW]; [congruence|].
  exists (reads c), Pe, Pd, w, a.
  split; [exact HD|]. split; [exact HB|]. split; [exact RS|]. split; [lia|].
  split; [split; [apply (proj1 wire_reads A c w a W)|exact N]|].
  destruct (RS _ E0) as (ID & _).
  constructor; unfold fresh_link; cbn [l_todo l_enc l_wbuf l_stream l_rbuf l_dec l_got].
  - exists (w :: ws), [], (a :: items). unfold pipe.
    cbn [l_todo l_enc l_wbuf l_stream l_rbuf l_dec l_got].
    change (rb_content (rb_new rinner)) with (@nil byte).
    change (wb_content (wb_new winner)) with (@nil byte). cbn [app].
    split; [apply K; lia|]. split; [unfold sender_ok; rewrite ID; auto|]. split; [reflexivity|].
    split; [|split; [exact LN|]].
    2:{ unfold measure. cbn [l_todo l_enc l_wbuf l_stream l_rbuf l_dec l_got]. rewrite ID.
        change (rb_content (rb_new rinner)) with (@nil byte). change (wb_content (wb_new winner)) with (@nil byte).
        cbn [length]. lia. }
    exists w, ws. split; [apply HD; [exact D0|apply (proj1 wire_reads A c w a W)]|].
    split; [apply HB; exact D0|]. split; [exact N|]. split; [|reflexivity].
    clear - HW. induction HW as [|w a ws items [W N] HW IH]; constructor; auto.
    split; [apply (proj1 wire_reads A c w a W)|exact N].
  - unfold wb_ok, indices_ok. cbn. lia.
  - reflexivity.
  - discriminate.
  - unfold rb_ok, indices_ok. cbn. lia.
  - reflexivity.
  - discriminate.
Qed.

(** ** C46: items arrive complete and in order

    Whatever the two sides and the stream do:
    - what was received is the beginning of what was to be sent;
    - the next action succeeds, unless the stream itself fails, and then the error is that of the
      stream;
    - when nothing is on its way any more, everything has been received. *)
Theorem C46_in_order : forall A (c : codec A) ws items winner rinner, messages c ws items ->
  exists f0, forall fuel, f0 < fuel ->
  forall n l, reaches (encoder c) (decoder c) fuel (fresh_link c items winner rinner) n l ->
    (exists rest, items = l_got l ++ rest) /\
    (forall a l' r, act (encoder c) (decoder c) fuel a l = Some (l', r) ->
       r = Ok tt \/ exists e, stream_error a e /\ r = Err (reported_kind e)) /\
    (l_todo l = [] -> enc_idle (encoder c) (l_enc l) = true -> wb_content (l_wbuf l) = [] ->
     l_stream l = [] -> rb_content (l_rbuf l) = [] -> l_got l = items).
Proof.
  intros A c ws items winner rinner M. destruct (link_start winner rinner M) as (f0 & K).
  exists f0. intros fuel LF n l H.
  destruct (K fuel LF) as (F & Pe & Pd & w0 & i0 & HD & HB & RS & HF & H0 & IV).
  destruct (reaches_inv i0 HD HB RS HF H0 IV H) as (m & IV' & _). split; [|split].
  - destruct (iv_ex IV') as (_ & _ & pend & _ & _ & HI & _). eauto.
  - intros a l' r X. exact (proj1 (any_act i0 HD HB RS HF H0 _ IV' X)).
  - intros. eapply quiet_done; eassumption.
Qed.
Print Assumptions C46_in_order.

(** As long as something is missing, some action can be done that succeeds and gets something on
    its way (buffers of at least one byte); and actions that get something on its way can only be
    done a limited number of times.  So a schedule that keeps doing them delivers everything. *)
Theorem C46_delivers : forall A (c : codec A) ws items winner rinner, messages c ws items ->
  winner <> [] -> rinner <> [] ->
  exists f0, forall fuel, f0 < fuel ->
    (forall n l, reaches (encoder c) (decoder c) fuel (fresh_link c items winner rinner) n l ->
       l_got l <> items ->
       exists a l', act (encoder c) (decoder c) fuel a l = Some (l', Ok tt) /\
                    moves (encoder c) l l') /\
    forall n l, reaches (encoder c) (decoder c) fuel (fresh_link c items winner rinner) n l ->
      n <= 4 * length (concat ws) + 2 * length items.
Proof.
  intros A c ws items winner rinner M NW NR. destruct (link_start winner rinner M) as (f0 & K).
  exists f0. intros fuel LF.
  destruct (K fuel LF) as (F & Pe & Pd & w0 & i0 & HD & HB & RS & HF & H0 & IV). split.
  - intros n l H NG. destruct (reaches_inv i0 HD HB RS HF H0 IV H) as (m & IV' & _).
    eapply no_deadlock; try eassumption.
    + destruct winner; [congruence|cbn; lia].
    + destruct rinner; [congruence|cbn; lia].
  - intros n l H. destruct (reaches_inv i0 HD HB RS HF H0 IV H) as (m & _ & L). lia.
Qed.
Print Assumptions C46_delivers.

(** From every state that can be reached everything can still be delivered. *)
Theorem C46_can_finish : forall A (c : codec A) ws items winner rinner, messages c ws items ->
  winner <> [] -> rinner <> [] ->
  exists f0, forall fuel, f0 < fuel ->
  forall n l, reaches (encoder c) (decoder c) fuel (fresh_link c items winner rinner) n l ->
  exists n' l', reaches (encoder c) (decoder c) fuel l n' l' /\ l_got l' = items.
Proof.
  intros A c ws items winner rinner M NW NR. destruct (link_start winner rinner M) as (f0 & K).
  exists f0. intros fuel LF n l H.
  destruct (K fuel LF) as (F & Pe & Pd & w0 & i0 & HD & HB & RS & HF & H0 & IV).
  destruct (reaches_inv i0 HD HB RS HF H0 IV H) as (m & IV' & _). clear IV H n.
  assert (PW : 0 < length winner) by (destruct winner; [congruence|cbn; lia]).
  assert (PR : 0 < length rinner) by (destruct rinner; [congruence|cbn; lia]).
  revert l IV'. induction m as [m IH] using lt_wf_ind. intros l IV'.
  pose proof (iv_ex IV') as (_ & _ & pend & _ & _ & HI & _).
  destruct pend as [|i is].
  { exists 0, l. split; [constructor|]. rewrite app_nil_r in HI. auto. }
  destruct (no_deadlock i0 HD HB RS HF H0 IV' PW PR) as (a & l1 & X & MV).
  { rewrite HI. intro Q. apply (f_equal (@length _)) in Q. rewrite app_length in Q. cbn in Q. lia. }
  destruct (any_act i0 HD HB RS HF H0 _ IV' X) as (_ & m' & IV1 & _ & L). specialize (L MV).
  destruct (IH m' L l1 IV1) as (k & l' & R & G). exists (S k), l'. split; [|exact G].
  clear - X MV R. induction R as [|k l2 a2 l3 r2 R IH X2|k l2 a2 l3 r2 R IH X2 M2].
  - eapply reaches_move; [constructor|exact X|exact MV].
  - eapply reaches_step; eassumption.
  - eapply reaches_move; eassumption.
Qed.
Print Assumptions C46_can_finish.

(** Two messages through buffers of 3 and 2 bytes over a stream that accepts and gives a few
    bytes at a time and blocks and fails in between ([run_link] skips actions that do not apply). *)
Fixpoint run_link {Se Sd A} (E : Encoder Se A) (D : Decoder Sd A) (fuel : nat)
    (acts : list action) (l : link Se Sd A) : link Se Sd A :=
  match acts with
  | [] => l
  | a :: acts' =>
      run_link E D fuel acts' (match act E D fuel a l with Some (l', _) => l' | None => l end)
  end.
Definition ex_round : list action :=
  [AEncode; AFlush [WrSome 1; WrErr IoWouldBlock]; AFill [RdSome 0; RdErr IoOther]; ADecode;
   AFlush [WrSome 0; WrErr IoOther]; AFill [RdSome 1; RdErr IoWouldBlock]; ADecode].
Example C46_example :
  messages ex_tlv [ex_tlv_bytes; [x08; x00; x00]] [ex_tlv_item; (8%N, [])] /\
  let l0 := fresh_link ex_tlv [ex_tlv_item; (8%N, [])] [x00; x00; x00] [x00; x00] in
  let seen l := (l_todo l, l_got l, wb_content (l_wbuf l), l_stream l, rb_content (l_rbuf l)) in
  seen (run_link (encoder ex_tlv) (decoder ex_tlv) 100 ([AStart] ++ ex_round ++ [AEncode; AFlush []]) l0) =
    ([(8%N, [])], [], [], [xaa; xbb], []) /\
  seen (run_link (encoder ex_tlv) (decoder ex_tlv) 100
         ([AStart] ++ concat (repeat ex_round 6) ++ [AStart] ++ concat (repeat ex_round 6)) l0) =
    ([], [ex_tlv_item; (8%N, [])], [], [], []).
Proof.
  split.
  - split; [apply ex_tlv_wf|]. do 4 (split; [reflexivity|]). split.
    + constructor; [split; [apply ex_tlv_wire1|discriminate]|].
      constructor; [split; [apply ex_tlv_wire2|discriminate]|constructor].
    + split; [discriminate|]. vm_compute. discriminate.
  - cbv zeta. split; vm_compute; reflexivity.
Qed.
