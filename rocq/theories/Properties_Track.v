(** * Properties_Track: C145

    Statements only; each is closed by a lemma proved elsewhere. *)

From Coq Require Import ZArith List Bool Lia.
From Verif Require Import Base SpecCluster Cluster Labels SpecLabels LabelsTrack.
Import ListNotations.
Open Scope Z_scope.

(** The documented use of [labels_map] (docs/examples/clusters_centers.py): [labels] are the
    clusters of the periodic image, [cut] those of the same image cut open at its boundary.
    The table [labels_map(labels, cut)] has one row per label, no name occurs twice in either
    column; renaming the labels with it changes neither background, nor partition, nor the order of the
    labels, and gives each cluster the smallest label of the pieces into which it is cut. *)
Theorem C145_named_after_the_first_piece :
  forall asrt shape img, good_shape shape -> (length shape <= 3)%nat -> lenZ img = zprod shape ->
  exists cut labels rows ret,
    clusters asrt shape img false = Ok cut /\ clusters asrt shape img true = Ok labels /\
    labels_map labels cut = Ok rows /\ labels_rename asrt labels (lenZ rows) 2 (table rows) = Ok ret /\
    NoDup (map fst rows) /\ (forall k, In k (map fst rows) <-> In k labels) /\ NoDup (map snd rows) /\
    lenZ ret = zprod shape /\
    (forall p, pixel shape p -> (zn ret p = 0 <-> zn img p = 0)) /\
    (forall p q, pixel shape p -> pixel shape q -> (zn labels p < zn labels q <-> zn ret p < zn ret q)) /\
    (forall p, pixel shape p -> (exists q, pixel shape q /\ zn labels q = zn labels p /\ zn ret p = zn cut q) /\
       forall q, pixel shape q -> zn labels q = zn labels p -> zn ret p <= zn cut q).
Proof. exact clusters_track. Qed.
Print Assumptions C145_named_after_the_first_piece.

(** The other way around, the table glues the pieces together again. *)
Theorem C145_pieces_are_glued :
  forall asrt shape img, good_shape shape -> (length shape <= 3)%nat -> lenZ img = zprod shape ->
  exists cut labels rows,
    clusters asrt shape img false = Ok cut /\ clusters asrt shape img true = Ok labels /\
    labels_map cut labels = Ok rows /\ labels_rename asrt cut (lenZ rows) 2 (table rows) = Ok labels.
Proof. exact clusters_merge. Qed.
Print Assumptions C145_pieces_are_glued.

(** The first cluster is cut in two; the second is not cut, but is number three of the pieces. *)
Example C145_case :
  good_shape [2; 5] /\ lenZ [1;0;0;0;1; 0;0;1;0;0] = zprod [2; 5] /\
  clusters true [2; 5] [1;0;0;0;1; 0;0;1;0;0] false = Ok [1;0;0;0;2; 0;0;3;0;0] /\
  clusters true [2; 5] [1;0;0;0;1; 0;0;1;0;0] true = Ok [1;0;0;0;1; 0;0;2;0;0] /\
  labels_map [1;0;0;0;1; 0;0;2;0;0] [1;0;0;0;2; 0;0;3;0;0] = Ok [(0,0); (1,1); (2,3)] /\
  labels_rename true [1;0;0;0;1; 0;0;2;0;0] 3 2 (table [(0,0); (1,1); (2,3)]) = Ok [1;0;0;0;1; 0;0;3;0;0] /\
  labels_map [1;0;0;0;2; 0;0;3;0;0] [1;0;0;0;1; 0;0;2;0;0] = Ok [(0,0); (1,1); (2,1); (3,2)].
Proof.
  split; [unfold good_shape; split; [discriminate|]; split; [repeat constructor; lia|reflexivity]|].
  vm_compute. auto 10.
Qed.
