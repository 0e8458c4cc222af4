(** * SpecOneCluster: a region of interest that holds every offset *)

From Coq Require Import ZArith List Bool.
From Verif Require Import Base SpecCluster.
Import ListNotations.
Open Scope Z_scope.

(** The smallest region of interest in which every pixel sees every other one. *)
Definition whole (per : bool) (shape : list Z) : list Z := if per then shape else map (fun n => 2 * n - 1) shape.

(** The phase is connected: any two of its pixels are linked by face neighbours in it. *)
Definition connected (per : bool) (shape f : list Z) : Prop :=
  forall p q, pixel shape p -> pixel shape q -> zn f p <> 0 -> zn f q <> 0 ->
  linked (face_neighbour per shape) (fun x => pixel shape x /\ zn f x <> 0) p q.
