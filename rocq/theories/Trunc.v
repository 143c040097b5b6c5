(** * Streams that end too early: specification vocabulary.

    Only the trait records and the user loops of [Spec] are used here. *)
From Verif Require Export Universe Session.
Set Implicit Arguments.

(** The stream is [t ++ u] minus [u]: the caller's hints are exact about [t].  [told prompt n sched]:
    some call of the schedule tells the decoder that nothing follows the [n] bytes;
    a decoder that reports late is told only by a call that offers no byte. *)
Fixpoint told (prompt : bool) (n : nat) (sched : schedule) : bool :=
  match sched with
  | [] => false
  | (k, h) :: sched' =>
      match h with
      | HExact => if prompt then n <=? k else n =? 0
      | _ => false
      end || told prompt (n - k) sched'
  end.
Lemma told_prompt : forall sched n, told true n sched = announced n sched.
Proof. induction sched as [|[k []] sched IH]; cbn; intros; rewrite ?IH; reflexivity. Qed.

(** The terms whose decoder reports that the stream has ended inside an item.
    With [prompt = true]: in the very call in which the end is announced.
    With [prompt = false]: possibly not in the call that delivers the last bytes, but in any
    call announcing the end that brings no byte (a [length] checks late).
    Decoders that take what there is up to the end of the stream have no notion of a truncated
    item; [collect] drops a partial item (see [C24_refuted]); [maybe_eos] hides the end of the stream. *)
Fixpoint reports (prompt : bool) {A} (c : codec A) : Prop :=
  match c with
  | CU _ | CS _ | CNull | CBytes _ | CBytesOnce _ | CUtf8 _ => True
  | CRest | CUtf8Rest | CMono _ _ | CSeq _ | CMaybe _ => False
  | CPad _ _ | CLen _ _ | CLen2 _ _ | CPrefixed _ _ _ => prompt = false
  | CTuple p => preports prompt p
  | CMap _ _ c => reports prompt c
  | CTryMap _ _ c => reports prompt c
  | CMapErr f _ c => f UnexpectedEos = UnexpectedEos /\ reports prompt c
  | COpt b c => b = true \/ reports prompt c
  | CMax _ c => reports prompt c
  | CPeek c => reports prompt c
  | CPre c => reports prompt c
  | CSeqN _ c => reports prompt c
  | CCounted _ c => reports prompt c
  | CFlagged _ c => reports prompt c
  end
with preports (prompt : bool) {A} (p : parts A) : Prop :=
  match p with
  | PTwo c c' => reports prompt c /\ reports prompt c'
  | PSnoc p c => preports prompt p /\ reports prompt c
  end.
