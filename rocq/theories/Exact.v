(** * When [decode_exact] returns: specification.

    [decode_exact] (src/io.rs:30-52) reads as many bytes as [requiring_bytes] says and calls [decode] until the
    decoder is idle.  It goes round in circles if the decoder asks for nothing, is given nothing and does not
    become idle.  The predicates below single out the decoders that can get there. *)
From Verif Require Export Live.
Set Implicit Arguments.

(** A successful call that announces the end of the stream always completes the item, also if it brings
    bytes.  ([length(n)] checks late: see [C14_prompt_refuted].) *)
Fixpoint prompt {A} (c : codec A) : bool :=
  match c with
  | CPad _ _ | CLen _ _ | CLen2 _ _ | CPrefixed _ _ _ | CMaybe _ => false
  | CTuple p => pprompt p
  | CMap _ _ c => prompt c
  | CTryMap _ _ c => prompt c
  | CMapErr _ _ c => prompt c
  | COpt _ c => prompt c
  | CMax _ c => prompt c
  | CPeek c => prompt c
  | CPre c => prompt c
  | CSeq c => prompt c
  | CSeqN _ c => prompt c
  | CCounted _ c => prompt c
  | CFlagged _ c => prompt c
  | _ => true
  end
with pprompt {A} (p : parts A) : bool :=
  match p with
  | PTwo c c' => prompt c && prompt c'
  | PSnoc p c => pprompt p && prompt c
  end.

(** After a successful call the decoder is idle or asks for more bytes. *)
Fixpoint asks_on {A} (c : codec A) : bool :=
  match c with
  | CTuple p => pasks_on p
  | CMap _ _ c => asks_on c
  | CTryMap _ _ c => asks_on c
  | CMapErr _ _ c => asks_on c
  | COpt _ c => asks_on c
  | CLen _ c => prompt c
  | CLen2 _ c => prompt c
  | CPrefixed _ _ c => prompt c
  | CMax _ c => asks_on c
  | CPeek c => asks_on c
  | CPre c => asks_on c
  | CFlagged _ c => asks_on c
  | CMaybe _ => false
  | _ => true
  end
with pasks_on {A} (p : parts A) : bool :=
  match p with
  | PTwo c c' => asks_on c && asks_on c'
  | PSnoc p c => pasks_on p && asks_on c
  end.

(** At the beginning of every item the decoder asks for at least one byte. *)
Fixpoint asks_first {A} (c : codec A) : bool :=
  match c with
  | CNull | CBytesOnce _ | CSeqN _ _ | CMaybe _ => false
  | CBytes n | CUtf8 n | CPad _ n => negb (n =? 0)
  | CTuple p => pasks_first p
  | CMap _ _ c => asks_first c
  | CTryMap _ _ c => asks_first c
  | CMapErr _ _ c => asks_first c
  | COpt b c => negb b && asks_first c
  | CLen n _ => negb (n =? 0)%N
  | CLen2 n _ => negb (n =? 0)%N
  | CMax _ c => asks_first c
  | CPeek c => asks_first c
  | CPre c => asks_first c
  | _ => true
  end
with pasks_first {A} (p : parts A) : bool :=
  match p with
  | PTwo c c' => asks_first c || asks_first c'
  | PSnoc p c => pasks_first p || asks_first c
  end.

(** No [maybe_eos()], and the items of every [collect()] and [collectn(n)] ask for bytes as long as they are
    not complete. *)
Fixpoint asks {A} (c : codec A) : Prop :=
  match c with
  | CMaybe _ => False
  | CTuple p => pasks p
  | CMap _ _ c => asks c
  | CTryMap _ _ c => asks c
  | CMapErr _ _ c => asks c
  | COpt _ c => asks c
  | CLen _ c => asks c
  | CLen2 _ c => asks c
  | CMax _ c => asks c
  | CPeek c => asks c
  | CPre c => asks c
  | CPrefixed _ _ c => asks c
  | CFlagged _ c => asks c
  | CSeq c => asks_first c = true /\ asks_on c = true /\ asks c
  | CSeqN _ c => asks_first c = true /\ asks_on c = true /\ asks c
  | CCounted _ c => asks_first c = true /\ asks_on c = true /\ asks c
  | _ => True
  end
with pasks {A} (p : parts A) : Prop :=
  match p with
  | PTwo c c' => asks c /\ asks c'
  | PSnoc p c => pasks p /\ asks c
  end.
