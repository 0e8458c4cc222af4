(** * ClustersInt: the [int]s that [clusters] returns (GooseEYE.h:1200-1222)

    Cluster.v models the labels of [clusters] as unbounded integers.  The labeller has
    [ptrdiff_t]s, and [get()] is converted to [array_type::array<int>]: each label is converted
    (modulo 2^32, LabelsTyped.v). *)

From Coq Require Import ZArith List.
From Verif Require Import Base Cluster LabelsTyped.
Import ListNotations.
Open Scope Z_scope.

(** GooseEYE.h:1200-1222. *)
Definition clusters_int (asrt : bool) (shape img : list Z) (per : bool) : res (list Z) :=
  lab <- clusters asrt shape img per ;; Ok (map (conv I32) lab).
