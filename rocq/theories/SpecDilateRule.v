(** * SpecDilateRule: one iteration of a dilation, pixel by pixel *)

From Coq Require Import ZArith List.
From Verif Require Import Base SpecCluster SpecDilate.
Import ListNotations.
Open Scope Z_scope.

Section Rule.
Variables (per : bool) (shape ks kv iterations : list Z).

(** In iteration [k] (counted from zero) pixel [p] can pass its label to [q]. *)
Definition donor (k : Z) (g : list Z) (p q : Z) : Prop :=
  kernel_step per shape ks kv p q /\ zn g p <> 0 /\ k < zn iterations (zn g p).

(** What iteration [k] makes of the image [g]: labelled pixels keep their label; the others take
    that of their last donor (in row-major order), if there is one. *)
Definition grown (k : Z) (g g' : list Z) : Prop :=
  lenZ g' = lenZ g /\
  forall q, pixel shape q ->
    (zn g q <> 0 -> zn g' q = zn g q) /\
    (zn g q = 0 -> (forall p, ~ donor k g p q) -> zn g' q = 0) /\
    (forall p, zn g q = 0 -> donor k g p q -> (forall p', donor k g p' q -> p' <= p) -> zn g' q = zn g p).

(** [n] iterations. *)
Inductive grows : Z -> list Z -> list Z -> Prop :=
| grows_none : forall g, grows 0 g g
| grows_more : forall n g g' g'', 0 <= n -> grows n g g' -> grown n g' g'' -> grows (n + 1) g g''.
End Rule.
