(** * SpecPiece: labels in one piece *)

From Coq Require Import ZArith List.
From Verif Require Import Base SpecCluster.
Import ListNotations.
Open Scope Z_scope.

(** Of the pixels with label [l] any two are connected by a chain of such pixels. *)
Definition in_one_piece (adj : Z -> Z -> Prop) (shape labels : list Z) (l : Z) : Prop :=
  forall p q, pixel shape p -> pixel shape q -> zn labels p = l -> zn labels q = l ->
    linked adj (fun x => pixel shape x /\ zn labels x = l) p q.
