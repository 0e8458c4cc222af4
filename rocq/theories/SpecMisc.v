(** * SpecMisc: texts *)

From Coq Require Import ZArith List String Ascii.
Import ListNotations.

(** [t] is [s] without its characters [c]: the others are kept, in order. *)
Inductive without (c : ascii) : list ascii -> list ascii -> Prop :=
| without_nil : without c [] []
| without_drop : forall s t, without c s t -> without c (c :: s) t
| without_keep : forall x s t, x <> c -> without c s t -> without c (x :: s) (x :: t).

(** The labellers of the Python module: name of the class, rank, and whether it is periodic. *)
Definition python_classes : list (string * Z * bool) :=
  [ ("ClusterLabeller1", 1%Z, false); ("ClusterLabeller2", 2%Z, false); ("ClusterLabeller3", 3%Z, false);
    ("ClusterLabeller1p", 1%Z, true); ("ClusterLabeller2p", 2%Z, true); ("ClusterLabeller3p", 3%Z, true) ]%string.
