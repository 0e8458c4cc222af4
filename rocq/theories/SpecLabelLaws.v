(** * SpecLabelLaws: label images that divide the pixels in the same way *)

From Coq Require Import ZArith List Reals.
From Verif Require Import Base Labels Center SpecLabels.
Import ListNotations.
Open Scope Z_scope.

(** Two pixels have the same label in [a] if and only if they have in [b]. *)
Definition same_partition (a b : list Z) : Prop :=
  lenZ a = lenZ b /\
  forall p q, 0 <= p < lenZ a -> 0 <= q < lenZ a -> (zn a p = zn a q <-> zn b p = zn b q).

(** The labels [names] of [a] have the sizes and the centers, with any weights, of the labels
    [names'] of [b]. *)
Definition measured_alike (a names b names' : list Z) : Prop :=
  labels_sizes_names a names = labels_sizes_names b names' /\
  (forall asrt shape per, labels_centers asrt shape a names per = labels_centers asrt shape b names' per) /\
  (forall asrt shape wshape w per,
     labels_centers_of_mass asrt shape a wshape w names per = labels_centers_of_mass asrt shape b wshape w names' per).
