(** * Soundness of decoders: specification.

    The completeness half ("an encoding of an item is decoded to it") is [parses] in [Spec].
    Here is the converse: whatever the calls were, an item that comes out is
    justified by the bytes that went in. *)
From Verif Require Export Universe.
Set Implicit Arguments.

(** [H s acc]: "in state [s] the bytes [acc] have been consumed since the last item".  Every
    successful [decode] of a decoder that is not idle, with any buffer and any (possibly
    wrong) hint, adds what it has consumed; a successful [finish_decoding] gives an item of the
    format.  If [again], the decoder then starts afresh, and if [bz] it is not idle then. *)
Record sound_step {S I} (D : Decoder S I) (fmt : format I) (again bz : bool)
    (H : S -> list byte -> Prop) : Prop := {
  sd_decode : forall s acc fuel buf e s' n,
    H s acc -> dec_idle D s = false -> dec_decode D fuel s buf e = (s', Ok n) ->
    n <= length buf /\ H s' (acc ++ firstn n buf);
  sd_finish : forall s acc s' i,
    H s acc -> dec_finish D s = (s', Ok i) -> fmt acc i /\
    (again = true -> H s' [] /\ (bz = true -> dec_idle D s' = false))
}.
Arguments sd_decode {S I D fmt again bz H} _ {s acc fuel buf e s' n} _ _ _.
Arguments sd_finish {S I D fmt again bz H} _ {s acc s' i} _ _.
Definition sound_from {S I} (D : Decoder S I) (fmt : format I) (again bz : bool) (s : S)
    (acc : list byte) : Prop :=
  exists H, sound_step D fmt again bz H /\ H s acc.

(** ** A history of successful calls, as a user makes them *)

(** One call to [decode] on a decoder that is not idle, or one call to [finish_decoding]. *)
Inductive op := ODecode (fuel : nat) (buf : list byte) (e : Eos) | OFinish.
(** [history D s ops s' consumed items]: the calls [ops] all succeed and lead from [s] to [s'];
    [items] are the items returned, each with the bytes consumed for it, and [consumed] are
    the bytes consumed since the last item. *)
Inductive history {S I} (D : Decoder S I) (s : S)
    : list op -> S -> list byte -> list (list byte * I) -> Prop :=
| hist_start : history D s [] s [] []
| hist_decode : forall ops s1 acc items fuel buf e s2 n,
    history D s ops s1 acc items -> dec_idle D s1 = false ->
    dec_decode D fuel s1 buf e = (s2, Ok n) ->
    history D s (ops ++ [ODecode fuel buf e]) s2 (acc ++ firstn n buf) items
| hist_finish : forall ops s1 acc items s2 i,
    history D s ops s1 acc items -> dec_finish D s1 = (s2, Ok i) ->
    history D s (ops ++ [OFinish]) s2 [] (items ++ [(acc, i)]).

(** ** What consumed bytes justify an item, for every term.

    As [reads], except:
    - [CSeq]: [collect] may have dropped the bytes [tail] of an incomplete last item;
    - [CMono]: the function may have looked at bytes [tail] that were not consumed;
    - sizes are not bounded. *)
Fixpoint justifies {A} (c : codec A) : format A :=
  match c in codec A return format A with
  | CU k => fun w n => num_bytes k n w
  | CS k => fun w z => length w = swidth k /\ twos_complement (swidth k) z (svalue k w)
  | CNull => fun w _ => w = []
  | CBytes n => fun w b => w = b /\ length b = n
  | CBytesOnce n => fun w b => w = b /\ length b = n
  | CRest => fun w b => w = b
  | CUtf8Rest => fun w s => utf8 s w
  | CUtf8 n => fun w s => utf8 s w /\ length w = n
  | CPad b n => fun w _ => w = repeat b n
  | CMono f g => fun w a => exists tail r, f (w ++ tail) = (inl a, r) /\ (tail = [] \/ r <= length w)
  | CTuple p => pjustifies p
  | CMap f g c => fun w b => exists a, justifies c w a /\ f a = b
  | CTryMap f g c => fun w b => exists a, justifies c w a /\ f a = inl b
  | CMapErr _ _ c => justifies c
  | COpt omitted c => fun w o =>
      match o with
      | None => omitted = true /\ w = []
      | Some a => omitted = false /\ justifies c w a
      end
  | CLen n c => fun w a => justifies c w a /\ len w = n
  | CLen2 n c => fun w a => justifies c w a /\ len w = n
  | CMax n c => fun w a => justifies c w a /\ (len w <= n)%N
  | CPeek c => justifies c
  | CMaybe c => justifies c
  | CPre c => justifies c
  | CSeq c => fun w l => exists w0 tail, w = w0 ++ tail /\ sequence_of (justifies c) w0 l
  | CSeqN n c => fun w l => sequence_of (justifies c) w l /\ length l = n
  | CPrefixed k size c => fun w a =>
      exists w0 w1, w = w0 ++ w1 /\ num_bytes k (len w1) w0 /\ justifies c w1 a
  | CCounted k c => fun w l =>
      exists w0 w1, w = w0 ++ w1 /\ num_bytes k (N.of_nat (length l)) w0 /\
                    sequence_of (justifies c) w1 l
  | CFlagged k c => fun w o =>
      exists w0 w1 n, w = w0 ++ w1 /\ num_bytes k n w0 /\
        match o with
        | None => n = 0%N /\ w1 = []
        | Some a => n <> 0%N /\ justifies c w1 a
        end
  end
with pjustifies {A} (p : parts A) : format A :=
  match p in parts A return format A with
  | PTwo c c' => fun w i =>
      exists w0 w1, w = w0 ++ w1 /\ justifies c w0 (fst i) /\ justifies c' w1 (snd i)
  | PSnoc p c => fun w i =>
      exists w0 w1, w = w0 ++ w1 /\ pjustifies p w0 (fst i) /\ justifies c w1 (snd i)
  end.

(** Terms for which nothing is dropped: no [collect], and monolithic functions
    that read their whole input. *)
Fixpoint faithful {A} (c : codec A) : Prop :=
  match c with
  | CMono f _ => forall w a r, f w = (inl a, r) -> r = length w
  | CTuple p => pfaithful p
  | CMap _ _ c => faithful c
  | CTryMap _ _ c => faithful c
  | CMapErr _ _ c => faithful c
  | COpt _ c => faithful c
  | CLen _ c => faithful c
  | CLen2 _ c => faithful c
  | CMax _ c => faithful c
  | CPeek c => faithful c
  | CMaybe c => faithful c /\ delim c <> ToEos
  | CPre c => faithful c
  | CSeq _ => False
  | CSeqN _ c => faithful c
  | CPrefixed _ _ c => faithful c
  | CCounted _ c => faithful c
  | CFlagged _ c => faithful c
  | _ => True
  end
with pfaithful {A} (p : parts A) : Prop :=
  match p with
  | PTwo c c' => faithful c /\ faithful c'
  | PSnoc p c => pfaithful p /\ faithful c
  end.

(** The decoder starts afresh after every item.  [collect] does not, in general: see
    [C24_refuted]. *)
Fixpoint renews {A} (c : codec A) : bool :=
  match c with
  | CBytesOnce _ => false
  | CTuple p => prenews p
  | CMap _ _ c => renews c
  | CTryMap _ _ c => renews c
  | CMapErr _ _ c => renews c
  | COpt b c => b || renews c
  | CLen _ c => renews c
  | CLen2 _ c => renews c
  | CMax _ c => renews c
  | CPeek c => renews c
  | CMaybe c => renews c
  | CPre c => renews c
  | CSeq _ => false
  | CSeqN _ _ => false
  | _ => true
  end
with prenews {A} (p : parts A) : bool :=
  match p with
  | PTwo c c' => renews c && renews c'
  | PSnoc p c => prenews p && renews c
  end.

(** The decoders that are used again inside [collect] and [collectn] start afresh, and [peekable]
    wraps a decoder that has something to decode. *)
Fixpoint usable {A} (c : codec A) : Prop :=
  match c with
  | CTuple p => pusable p
  | CMap _ _ c => usable c
  | CTryMap _ _ c => usable c
  | CMapErr _ _ c => usable c
  | COpt _ c => usable c
  | CLen _ c => usable c
  | CLen2 _ c => usable c
  | CMax _ c => usable c
  | CPeek c => busy c = true /\ usable c
  | CMaybe c => usable c
  | CPre c => usable c
  | CSeq c => renews c = true /\ usable c
  | CSeqN _ c => renews c = true /\ usable c
  | CPrefixed _ _ c => usable c
  | CCounted _ c => renews c = true /\ usable c
  | CFlagged _ c => usable c
  | _ => True
  end
with pusable {A} (p : parts A) : Prop :=
  match p with
  | PTwo c c' => usable c /\ usable c'
  | PSnoc p c => pusable p /\ usable c
  end.
