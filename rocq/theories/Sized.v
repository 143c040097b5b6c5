(** * [SizedEncode]: [exact_requiring_bytes] of the encoders of terms. *)
From Verif Require Export Universe.
Set Implicit Arguments.

(** [exact c] is [Some f] if the encoder of [c] implements [SizedEncode]; then [f] is its
    [exact_requiring_bytes].  src/encode.rs:111-126, src/bytes.rs:81-87 and 391-395, src/fixnum.rs:53-57,
    src/null.rs:53-57, src/tuple.rs:123-130, src/combinator.rs:167-176 ([map_err]), 298-306
    ([map_from]), 367-376 ([try_map_from]), 573-577 ([optional]), 796-800 ([length]), 1074-1078
    ([max_bytes]), 1132-1136 ([pre_encode]).  [MonolithicEncoder] and [Repeat] have none. *)
Definition exact_pair {S0 S1} (f : S0 -> res N) (g : S1 -> res N) : S0 * S1 -> res N :=
  exact_snoc (exact_one f) g.
Fixpoint exact {A} (c : codec A) : option (ES (sem c) -> res N) :=
  match c in codec A return option (ES (sem c) -> res N) with
  | CU _ => Some num_enc_exact
  | CS _ => Some num_enc_exact
  | CNull => Some null_enc_exact
  | CBytes _ => Some (bytes_enc_exact vec_box)
  | CBytesOnce _ => Some (bytes_enc_exact vec_box)
  | CRest => Some (bytes_enc_exact vec_box)
  | CUtf8Rest => Some utf8_enc_exact
  | CUtf8 _ => Some utf8_enc_exact
  | CPad _ _ => Some length_enc_exact
  | CMono _ _ => None
  | CTuple p => pexact p
  | CMap _ _ c => exact c
  | CTryMap _ _ c => exact c
  | CMapErr _ _ c => exact c
  | COpt _ c => exact c
  | CLen _ c => exact c
  | CLen2 _ _ => Some length_enc_exact
  | CMax _ c => option_map max_enc_exact (exact c)
  | CPeek c => exact c
  | CMaybe c => exact c
  | CPre _ => Some pre_enc_exact
  | CSeq _ => None
  | CSeqN _ _ => None
  | CPrefixed _ _ c => option_map (exact_pair num_enc_exact) (exact c)
  | CCounted _ _ => None
  | CFlagged _ c => option_map (exact_pair num_enc_exact) (exact c)
  end
with pexact {A} (p : parts A) : option (PES (psem p) -> res N) :=
  match p in parts A return option (PES (psem p) -> res N) with
  | PTwo c c' =>
      match exact c, exact c' with Some f, Some g => Some (exact_pair f g) | _, _ => None end
  | PSnoc p c =>
      match pexact p, exact c with Some f, Some g => Some (exact_snoc f g) | _, _ => None end
  end.
