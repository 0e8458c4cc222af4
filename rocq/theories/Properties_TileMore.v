(** * Properties_TileMore: C122

    See properties.jsonl for the English statement; the specification is in SpecCluster.v,
    SpecDilate.v and SpecTile.v. *)

From Coq Require Import ZArith List Bool Lia.
From Verif Require Import Base Cluster SpecCluster Dilate SpecDilate SpecSymmetry SpecTile TileTop TileMore.
Import ListNotations.
Open Scope Z_scope.

(** ** C122 *)

(** Pixels of one cluster of the repeated image are copies of pixels of one cluster; every copy
    of a pixel is in one cluster with a copy of each of the pixels of its cluster; so there are
    at least as many clusters as in the image, and at most as many times more as there are
    copies. *)
Theorem C122_clusters : forall asrt times shape img img',
  good_shape shape -> Forall (fun n => 1 <= n) shape -> (length shape <= 3)%nat -> length times = length shape -> Forall (fun n => 1 <= n) times ->
  zprod (tiled times shape) < SpecCluster.big -> lenZ img = zprod shape -> lenZ img' = zprod (tiled times shape) ->
  carried (copy_of times shape) img img' ->
  exists lab lab' n n', clusters asrt shape img true = Ok lab /\ clusters asrt (tiled times shape) img' true = Ok lab' /\
    (forall p q p' q', copy_of times shape p p' -> copy_of times shape q q' -> zn lab' p' = zn lab' q' -> zn lab p = zn lab q) /\
    (forall p q p', copy_of times shape p p' -> pixel shape q -> zn lab p = zn lab q -> exists q', copy_of times shape q q' /\ zn lab' p' = zn lab' q') /\
    (forall v, 1 <= v <= n <-> v <> 0 /\ exists p, pixel shape p /\ zn lab p = v) /\
    (forall v, 1 <= v <= n' <-> v <> 0 /\ exists p, pixel (tiled times shape) p /\ zn lab' p = v) /\
    0 <= n <= n' /\ n' <= zprod times * n.
Proof. exact tile_clusters. Qed.
Print Assumptions C122_clusters.

(** The dilated foreground of the repeated image is the dilated foreground, repeated. *)
Theorem C122_dilate : forall asrt times shape f f' ks kv n,
  dilatable_n true shape f ks kv -> length times = length shape -> Forall (fun n => 1 <= n) times ->
  lenZ f' = zprod (tiled times shape) -> carried (copy_of times shape) f f' -> 0 <= n ->
  exists ret ret', dilate_n asrt shape f ks kv n true = Ok ret /\ dilate_n asrt (tiled times shape) f' ks kv n true = Ok ret' /\
    forall p p', copy_of times shape p p' -> (zn ret' p' <> 0 <-> zn ret p <> 0).
Proof. exact tile_dilate. Qed.
Print Assumptions C122_dilate.

Theorem C122_dilate_default : forall asrt times shape f f' n,
  (1 <= length shape <= 3)%nat -> image shape f -> (forall l, In l f -> 0 <= l < 2 ^ 62) ->
  length times = length shape -> Forall (fun n => 1 <= n) times ->
  lenZ f' = zprod (tiled times shape) -> carried (copy_of times shape) f f' -> 0 <= n ->
  exists ret ret', dilate_default_n asrt shape f n true = Ok ret /\ dilate_default_n asrt (tiled times shape) f' n true = Ok ret' /\
    forall p p', copy_of times shape p p' -> (zn ret' p' <> 0 <-> zn ret p <> 0).
Proof. exact tile_default. Qed.
Print Assumptions C122_dilate_default.

(** A line of three pixels, repeated; and one that is a single cluster, however repeated. *)
Example C122_case :
  carried (copy_of [2] [3]) [1;0;1] [1;0;1;1;0;1] /\ good_shape [3] /\
  clusters true [3] [1;0;1] true = Ok [1;0;1] /\ clusters true (tiled [2] [3]) [1;0;1;1;0;1] true = Ok [1;0;2;2;0;1] /\
  clusters true [3] [1;1;1] true = Ok [1;1;1] /\ clusters true (tiled [2] [3]) [1;1;1;1;1;1] true = Ok [1;1;1;1;1;1] /\
  dilatable_n true [3] [1;0;0] [3] [0;1;1] /\ carried (copy_of [2] [3]) [1;0;0] [1;0;0;1;0;0] /\
  dilate_n true [3] [1;0;0] [3] [0;1;1] 1 true = Ok [1;1;0] /\ dilate_n true (tiled [2] [3]) [1;0;0;1;0;0] [3] [0;1;1] 1 true = Ok [1;1;0;1;1;0].
Proof.
  split; [by_cases|]. split; [split; [discriminate|]; split; [repeat constructor; lia|reflexivity]|].
  do 4 (split; [vm_compute; reflexivity|]).
  split. { split; [cbn; lia|]. split; [split; [repeat constructor; lia|reflexivity]|]. split; [reflexivity|]. split; [split; [repeat constructor; lia|reflexivity]|].
    split; [intros k IN; cbn in IN; intuition lia|]. split; [intros _; cbn; lia|intros l IN; cbn in IN; intuition lia]. }
  split; [by_cases|]. split; vm_compute; reflexivity.
Qed.
