(** * SpecStructureExn: samples of one shape *)

From Coq Require Import ZArith List Reals.
From Verif Require Import Base Structure SpecStructure.

Definition of_shape (shape : list Z) (x : data * (Z -> Z -> R)) : bool :=
  if list_eq_dec Z.eq_dec (shape_of (fst x)) shape then true else false.
