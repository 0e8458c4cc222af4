(** * SpecRepeat: offsets under which an image repeats itself *)

From Coq Require Import ZArith QArith Qcanon List Bool.
From Verif Require Import Base SpecCluster SpecEnsemble.
Open Scope Z_scope.

(** Every pixel has the value of the pixel an offset [d] away, if there is one. *)
Definition repeats (per : bool) (shape : list Z) (f : list Qc) (d : list Z) : Prop :=
  forall p q, pixel shape p -> pixel shape q -> moved per shape (coords shape p) d (coords shape q) -> qn f p = qn f q.

(** The same, where neither of the two pixels is masked (the mask is not zero). *)
Definition repeats_unmasked (shape : list Z) (f : list Qc) (mask : list Z) (d : list Z) : Prop :=
  forall p q, pixel shape p -> pixel shape q -> zn mask p = 0 -> zn mask q = 0 ->
    moved false shape (coords shape p) d (coords shape q) -> qn f p = qn f q.
