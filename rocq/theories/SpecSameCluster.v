(** * SpecSameCluster: a displacement that keeps every label *)

From Coq Require Import ZArith List Bool.
From Verif Require Import Base SpecCluster SpecEnsemble.
Open Scope Z_scope.

(** Every labelled pixel of [f] has the label that [g] has an offset [d] away, over the boundary. *)
Definition keeps_labels (shape : list Z) (f g : list Z) (d : list Z) : Prop :=
  forall p q, pixel shape p -> pixel shape q -> moved true shape (coords shape p) d (coords shape q) -> zn f p <> 0 -> zn g q = zn f p.
