(** * Specification of number formats: digits in base 256 and two's complement. *)
From Coq Require Import List NArith ZArith.
From Coq Require Import Init.Byte Strings.Byte.
Import ListNotations.

(** The number whose base-256 digits are [l], most significant first. *)
Fixpoint be_value (l : list byte) : N :=
  match l with
  | [] => 0
  | b :: l' => Byte.to_N b * 256 ^ N.of_nat (length l') + be_value l'
  end.

(** The number whose base-256 digits are [l], least significant first. *)
Fixpoint le_value (l : list byte) : N :=
  match l with
  | [] => 0
  | b :: l' => Byte.to_N b + 256 * le_value l'
  end.

(** [u] is the two's complement representation of [z] in [8 * width] bits. *)
Definition twos_complement (width : nat) (z : Z) (u : N) : Prop :=
  (- 2 ^ (8 * Z.of_nat width - 1) <= z < 2 ^ (8 * Z.of_nat width - 1))%Z /\
  (Z.of_N u < 2 ^ (8 * Z.of_nat width))%Z /\
  (Z.of_N u = z \/ Z.of_N u = z + 2 ^ (8 * Z.of_nat width))%Z.
