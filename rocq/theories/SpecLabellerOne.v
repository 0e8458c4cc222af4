(** * SpecLabellerOne: the effect of adding one pixel to labels *)

From Coq Require Import ZArith List Bool.
From Verif Require Import Base Cluster SpecCluster.
Import ListNotations.
Open Scope Z_scope.

(** [v] is the label of one of the pixels [adj]. *)
Definition touching (adj : Z -> Prop) (shape lab : list Z) (v : Z) : Prop :=
  v <> 0 /\ exists q, pixel shape q /\ adj q /\ zn lab q = v.

(** The labels [lab'] after pixel [p], of which the neighbours are [adj], was added to [lab]:
    nothing changes if it was there; it starts a new cluster, with a label larger than all
    others, if it touches none; it takes the smallest label it touches, and so do all clusters
    that it touches, and no other pixel changes; [k] clusters that are touched become one. *)
Definition adds_one (adj : Z -> Prop) (shape : list Z) (p : Z) (lab lab' : list Z) : Prop :=
  lenZ lab' = lenZ lab /\
  (zn lab p <> 0 -> lab' = lab) /\
  (zn lab p = 0 -> (forall v, ~ touching adj shape lab v) ->
     forall q, pixel shape q -> zn lab q < zn lab' p /\ (q <> p -> zn lab' q = zn lab q)) /\
  (zn lab p = 0 -> forall v, touching adj shape lab v -> (forall w, touching adj shape lab w -> v <= w) ->
     forall q, pixel shape q ->
       (q = p \/ touching adj shape lab (zn lab q) -> zn lab' q = v) /\
       (q <> p -> ~ touching adj shape lab (zn lab q) -> zn lab' q = zn lab q)) /\
  (zn lab p = 0 -> forall K, NoDup K -> (forall v, In v K <-> touching adj shape lab v) ->
     (nclusters lab' + length K = nclusters lab + 1)%nat).
