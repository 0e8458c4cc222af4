(** * SpecAxes: an image with its axes in another order

    What [np.transpose] with [axes], [np.swapaxes] and [np.moveaxis] do. *)

From Coq Require Import ZArith List Bool Permutation.
From Verif Require Import Base SpecCluster.
Import ListNotations.

(** [order] names every one of [rank] axes once. *)
Definition axes (order : list nat) (rank : nat) : Prop := Permutation order (seq 0 rank).

(** The entries of [x] in that order; [missing] is never used when [order] names axes of [x]. *)
Definition arranged {A} (missing : A) (order : list nat) (x : list A) : list A :=
  map (fun axis => nth axis x missing) order.

(** Axis [k] of the result is axis [order[k]] of the image. *)
Definition permutes (order : list nat) (shape : list Z) (p q : Z) : Prop :=
  pixel shape p /\ pixel (arranged 0%Z order shape) q /\
  coords (arranged 0%Z order shape) q = arranged 0%Z order (coords shape p).
