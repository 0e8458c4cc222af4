(** * SpecRegister: one periodic image is another one moved *)

From Coq Require Import ZArith QArith Qcanon List Bool.
From Verif Require Import Base SpecCluster SpecEnsemble.
Open Scope Z_scope.

(** Every pixel of [f] has the value that [g] has an offset [d] away, over the boundary. *)
Definition carried_to (shape : list Z) (f g : list Qc) (d : list Z) : Prop :=
  forall p q, pixel shape p -> pixel shape q -> moved true shape (coords shape p) d (coords shape q) -> qn f p = qn g q.
