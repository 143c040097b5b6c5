(** * The fuel of the model: see [Contract.v]. *)
From Verif Require Export Safe.
