(** * Specification of UTF-8 (Unicode standard, definition D92, tables 3-6 and 3-7),
      in arithmetic form. *)
From Coq Require Import List NArith.
From Coq Require Import Init.Byte Strings.Byte.
Import ListNotations.
Local Open Scope N_scope.

(** A Unicode scalar value: a code point that is not a surrogate. *)
Definition scalar (c : N) : Prop := c < 0x110000 /\ ~ (0xD800 <= c < 0xE000).

(** [trail b v]: [b] is a continuation byte [10vvvvvv]. *)
Definition trail (b : byte) (v : N) : Prop := Byte.to_N b = 0x80 + v /\ v < 64.

(** [utf8_char c l]: [l] is the (shortest) form of the scalar value [c]. *)
Inductive utf8_char : N -> list byte -> Prop :=
| utf8_1 : forall c b0, c < 0x80 -> Byte.to_N b0 = c -> utf8_char c [b0]
| utf8_2 : forall c b0 b1 v0 v1,
    0x80 <= c < 0x800 ->
    Byte.to_N b0 = 0xC0 + v0 -> v0 < 32 -> trail b1 v1 ->
    c = v0 * 64 + v1 -> utf8_char c [b0; b1]
| utf8_3 : forall c b0 b1 b2 v0 v1 v2,
    0x800 <= c < 0x10000 -> ~ (0xD800 <= c < 0xE000) ->
    Byte.to_N b0 = 0xE0 + v0 -> v0 < 16 -> trail b1 v1 -> trail b2 v2 ->
    c = (v0 * 64 + v1) * 64 + v2 -> utf8_char c [b0; b1; b2]
| utf8_4 : forall c b0 b1 b2 b3 v0 v1 v2 v3,
    0x10000 <= c < 0x110000 ->
    Byte.to_N b0 = 0xF0 + v0 -> v0 < 8 -> trail b1 v1 -> trail b2 v2 -> trail b3 v3 ->
    c = ((v0 * 64 + v1) * 64 + v2) * 64 + v3 -> utf8_char c [b0; b1; b2; b3].

(** [utf8 s l]: the byte string [l] is the UTF-8 form of the string [s]. *)
Inductive utf8 : list N -> list byte -> Prop :=
| utf8_nil : utf8 [] []
| utf8_cons : forall c s l l', utf8_char c l -> utf8 s l' -> utf8 (c :: s) (l ++ l').
