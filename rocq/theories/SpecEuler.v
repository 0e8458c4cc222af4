(** * SpecEuler: pairs of neighbouring foreground pixels *)

From Coq Require Import ZArith List Bool.
From Verif Require Import Base SpecCluster SpecEnsemble.
Open Scope Z_scope.

(** [B] lists the pairs of neighbours in [A], each pair once. *)
Definition pairs_once (adj : Z -> Z -> Prop) (A : Z -> Prop) (B : list (Z * Z)) : Prop :=
  NoDup B /\ forall x y, In (x, y) B <-> x < y /\ A x /\ A y /\ adj x y.

(** The pairs of face neighbours. *)
Definition edges (per : bool) (shape : list Z) (A : Z -> Prop) (B : list (Z * Z)) : Prop :=
  pairs_once (face_neighbour per shape) A B.

(** The number of foreground pixels. *)
Definition foreground (shape img : list Z) : Z := lenZ (filter (fun p => negb (zn img p =? 0)) (pixels shape)).
