(** * What an encoder may write: specification for encoders used on any item.

    [writes c a w]: [w] is the encoding of the item [a] by the format of the term [c].  Unlike
    [wire] (file [Universe]) nothing is said about the decoder: the functions given to
    [map_from]/[try_map_from] need not have an inverse, and the number put in front of a
    body is whatever the user's size function says. *)
From Verif Require Export Universe.
Set Implicit Arguments.

(** The bits of the Rust type of the items: the 24-bit codecs take [u32] items, the 40, 48 and 56-bit
    codecs [u64] items (src/fixnum.rs:491, 523, 842, 875, 966, 999, 1090, 1123). *)
Definition item_bits (k : unum) : N :=
  match k with
  | NU8 => 8 | NU16be | NU16le => 16 | NU24be | NU24le | NU32be | NU32le => 32
  | NU40be | NU40le | NU48be | NU48le | NU56be | NU56le | NU64be | NU64le => 64
  | NF32be | NF32le => 32 | NF64be | NF64le => 64
  end.
Definition num_typed (k : unum) (n : N) : Prop := (n < 2 ^ item_bits k)%N.
Definition snum_typed (k : snum) (z : Z) : Prop :=
  (- 2 ^ (8 * Z.of_nat (swidth k) - 1) <= z < 2 ^ (8 * Z.of_nat (swidth k) - 1))%Z.

(** The numbers and strings that make up the item are values of their Rust types.  (Their model,
    [N], [Z] and [list N], has more values.) *)
Fixpoint typed {A} (c : codec A) : A -> Prop :=
  match c in codec A return A -> Prop with
  | CU k => num_typed k
  | CS k => snum_typed k
  | CNull => fun _ => True
  | CBytes _ => fun _ => True
  | CBytesOnce _ => fun _ => True
  | CRest => fun _ => True
  | CUtf8Rest => fun s => Forall scalar s
  | CUtf8 _ => fun s => Forall scalar s
  | CPad _ _ => fun _ => True
  | CMono _ _ => fun _ => True
  | CTuple p => ptyped p
  | CMap f g c => fun b => typed c (g b)
  | CTryMap f g c => fun b => match g b with inl a => typed c a | inr _ => True end
  | CMapErr _ _ c => typed c
  | COpt _ c => fun o => match o with Some a => typed c a | None => True end
  | CLen _ c => typed c
  | CLen2 _ c => typed c
  | CMax _ c => typed c
  | CPeek c => typed c
  | CMaybe c => typed c
  | CPre c => typed c
  | CSeq c => Forall (typed c)
  | CSeqN _ c => Forall (typed c)
  | CPrefixed k size c => fun a => num_typed k (size a) /\ typed c a
  | CCounted k c => fun l => num_typed k (N.of_nat (length l)) /\ Forall (typed c) l
  | CFlagged _ c => fun o => match o with Some a => typed c a | None => True end
  end
with ptyped {A} (p : parts A) : A -> Prop :=
  match p in parts A return A -> Prop with
  | PTwo c c' => fun i => typed c (fst i) /\ typed c' (snd i)
  | PSnoc p c => fun i => ptyped p (fst i) /\ typed c (snd i)
  end.

(** The encoding of an item. *)
Fixpoint writes {A} (c : codec A) : A -> list byte -> Prop :=
  match c in codec A return A -> list byte -> Prop with
  | CU k => fun n w => num_bytes k n w
  | CS k => fun z w => length w = swidth k /\ twos_complement (swidth k) z (svalue k w)
  | CNull => fun _ w => w = []
  | CBytes _ => fun b w => w = b
  | CBytesOnce _ => fun b w => w = b
  | CRest => fun b w => w = b
  | CUtf8Rest => fun s w => utf8 s w
  | CUtf8 _ => fun s w => utf8 s w
  | CPad b n => fun _ w => w = repeat b n
  | CMono f g => fun a w => exists chunks, g a = (chunks, None) /\ w = concat chunks
  | CTuple p => pwrites p
  | CMap f g c => fun b w => writes c (g b) w
  | CTryMap f g c => fun b w => exists a, g b = inl a /\ writes c a w
  | CMapErr _ _ c => writes c
  | COpt _ c => fun o w => match o with None => w = [] | Some a => writes c a w end
  | CLen _ c => writes c
  | CLen2 n c => fun a w => writes c a w /\ len w = n
  | CMax n c => fun a w => writes c a w /\ (len w <= n)%N
  | CPeek c => writes c
  | CMaybe c => writes c
  | CPre c => writes c
  | CSeq c => fun l w => exists ws, w = concat ws /\ Forall2 (writes c) l ws
  | CSeqN _ c => fun l w => exists ws, w = concat ws /\ Forall2 (writes c) l ws
  | CPrefixed k size c => fun a w =>
      exists w0 w1, w = w0 ++ w1 /\ num_bytes k (size a) w0 /\ writes c a w1
  | CCounted k c => fun l w =>
      exists w0 ws, w = w0 ++ concat ws /\ num_bytes k (N.of_nat (length l)) w0 /\
                    Forall2 (writes c) l ws
  | CFlagged k c => fun o w =>
      exists w0 w1, w = w0 ++ w1 /\
        match o with
        | None => num_bytes k 0 w0 /\ w1 = []
        | Some a => num_bytes k 1 w0 /\ writes c a w1
        end
  end
with pwrites {A} (p : parts A) : A -> list byte -> Prop :=
  match p in parts A return A -> list byte -> Prop with
  | PTwo c c' => fun i w => exists w0 w1, w = w0 ++ w1 /\ writes c (fst i) w0 /\ writes c' (snd i) w1
  | PSnoc p c => fun i w => exists w0 w1, w = w0 ++ w1 /\ pwrites p (fst i) w0 /\ writes c (snd i) w1
  end.

(** Encoders that notice when the room announced for them is too small.  Not so:
    [MonolithicEncoder], and [repeat] when an item has an empty encoding. *)
Fixpoint heeds {A} (c : codec A) : Prop :=
  match c with
  | CU _ | CS _ | CNull | CBytes _ | CBytesOnce _ | CRest | CUtf8Rest | CUtf8 _ | CPad _ _ => True
  | CMono _ _ => False
  | CTuple p => pheeds p
  | CMap _ _ c => heeds c
  | CTryMap _ _ c => heeds c
  | CMapErr _ _ c => heeds c
  | COpt _ c => heeds c
  | CLen _ c => heeds c
  | CLen2 _ _ => True
  | CMax _ c => heeds c
  | CPeek c => heeds c
  | CMaybe c => heeds c
  | CPre _ => True
  | CSeq c => heeds c /\ forall a, typed c a -> ~ writes c a []
  | CSeqN _ c => heeds c /\ forall a, typed c a -> ~ writes c a []
  | CPrefixed _ _ c => heeds c
  | CCounted _ c => heeds c /\ forall a, typed c a -> ~ writes c a []
  | CFlagged _ c => heeds c
  end
with pheeds {A} (p : parts A) : Prop :=
  match p with
  | PTwo c c' => heeds c /\ heeds c'
  | PSnoc p c => pheeds p /\ heeds c
  end.

(** The compositions the theorem is about: what [repeat], [optional] and a presence flag drive
    can be used again, and what [length(n)] (with [n > 0]) drives notices missing room.  The
    decoder side plays no role. *)
Fixpoint ewf {A} (c : codec A) : Prop :=
  match c with
  | CU _ | CS _ | CNull | CBytes _ | CBytesOnce _ | CRest | CUtf8Rest | CUtf8 _ | CPad _ _
  | CMono _ _ => True
  | CTuple p => pewf p
  | CMap _ _ c => ewf c
  | CTryMap _ _ c => ewf c
  | CMapErr _ _ c => ewf c
  | COpt _ c => ewf c /\ enc_again c = true
  | CLen _ c => ewf c
  | CLen2 n c => ewf c /\ heeds c /\ (0 < n)%N
  | CMax _ c => ewf c
  | CPeek c => ewf c
  | CMaybe c => ewf c
  | CPre c => ewf c
  | CSeq c => ewf c /\ enc_again c = true
  | CSeqN _ c => ewf c /\ enc_again c = true
  | CPrefixed _ _ c => ewf c
  | CCounted _ c => ewf c /\ enc_again c = true
  | CFlagged _ c => ewf c /\ enc_again c = true
  end
with pewf {A} (p : parts A) : Prop :=
  match p with
  | PTwo c c' => ewf c /\ ewf c'
  | PSnoc p c => pewf p /\ ewf c
  end.

(** Calls of [encode] with buffers and end-of-stream arguments of any kind, all of which succeed:
    [wrote E s out s'] goes from [s] to [s'] and has written [out]. *)
Inductive wrote {S I} (E : Encoder S I) (s : S) : list byte -> S -> Prop :=
| wrote_nil : wrote E s [] s
| wrote_call : forall out s1 fuel buf e s2 buf' n,
    wrote E s out s1 -> enc_encode E fuel s1 buf e = (s2, buf', Ok n) ->
    wrote E s (out ++ firstn n buf') s2.

(** Several items one after the other with the same encoder, each started when it is idle:
    [sent E s items out s'] writes [out]. *)
Inductive sent {S I} (E : Encoder S I) (s : S) : list I -> list byte -> S -> Prop :=
| sent_none : sent E s [] [] s
| sent_item : forall is out s1 i fuel s2 out' s3,
    sent E s is out s1 -> enc_start E fuel s1 i = (s2, Ok tt) -> wrote E s2 out' s3 ->
    enc_idle E s3 = true -> sent E s (is ++ [i]) (out ++ out') s3.

(** The compositions that encode every item that has an encoding. *)
Fixpoint able {A} (c : codec A) : Prop :=
  match c with
  | CU _ | CS _ | CNull | CBytes _ | CBytesOnce _ | CRest | CUtf8Rest | CUtf8 _ | CMono _ _ => True
  | CPad _ n => (0 < n)%nat
  | CTuple p => pable p
  | CMap _ _ c => able c
  | CTryMap _ _ c => able c
  | CMapErr _ _ c => able c
  | COpt _ c => able c /\ enc_again c = true
  | CLen _ c => able c
  | CLen2 n c => able c /\ enc_again c = true /\ (0 < n)%N
  | CMax n c => able c /\ (n <= u64_max)%N
  | CPeek c => able c
  | CMaybe c => able c
  | CPre c => able c /\ enc_again c = true
  | CSeq c => able c /\ enc_again c = true /\ forall a, ~ writes c a []
  | CSeqN _ c => able c /\ enc_again c = true /\ forall a, ~ writes c a []
  | CPrefixed _ _ c => able c
  | CCounted _ c => able c /\ enc_again c = true /\ forall a, ~ writes c a []
  | CFlagged _ c => able c /\ enc_again c = true
  end
with pable {A} (p : parts A) : Prop :=
  match p with
  | PTwo c c' => able c /\ able c'
  | PSnoc p c => pable p /\ able c
  end.
