(** * Properties_C2Sum: C113

    Each theorem is closed by [exact] of a lemma; definitions used in the statements:
    [SpecC2Sum.v], [SpecEnsemble.v], [SpecCluster.v], and the models [Ensemble.v], [Labels.v],
    [Cluster.v]. *)

From Coq Require Import ZArith QArith Qcanon List Bool.
From Verif Require Import Base Cluster SpecCluster Labels SpecLabels SpecDilate Ensemble SpecEnsemble SpecRelations SpecC2Sum C2Sum.
Import ListNotations.
Open Scope Z_scope.

(** ** C113 The cluster function sums to the sizes of the clusters *)

(** Two images of labels. *)
Theorem C113_sum_over_offsets : forall asrt var shape f g, shapes true shape shape -> is_image shape f -> is_image shape g ->
  exists e s, fresh asrt shape true var (CallC2 f g None) = Ok e /\
    (forall r, pixel shape r -> result_at e r = Exact (s r)) /\
    (sum_over (pixels shape) s = zq (joint_sizes (i_vals f) (i_vals g)) / zq (zprod shape))%Qc.
Proof. exact C2_sum_rule. Qed.
Print Assumptions C113_sum_over_offsets.

(** One image of labels: the squares of the sizes. *)
Theorem C113_sum_is_squared_sizes : forall asrt var shape f, shapes true shape shape -> is_image shape f ->
  exists e s, fresh asrt shape true var (CallC2 f f None) = Ok e /\
    (forall r, pixel shape r -> result_at e r = Exact (s r)) /\
    (sum_over (pixels shape) s = zq (squared_sizes (i_vals f)) / zq (zprod shape))%Qc.
Proof. exact C2_sizes. Qed.
Print Assumptions C113_sum_is_squared_sizes.

(** The clusters of a binary image. *)
Theorem C113_clusters : forall asrt var shape f, shapes true shape shape -> good_shape shape -> is_image shape f ->
  exists lab e s, clusters asrt shape (i_vals f) true = Ok lab /\
    fresh asrt shape true var (CallC2 (mkimg shape lab) (mkimg shape lab) None) = Ok e /\
    (forall r, pixel shape r -> result_at e r = Exact (s r)) /\
    (sum_over (pixels shape) s = zq (squared_sizes lab) / zq (zprod shape))%Qc.
Proof. exact C2_of_clusters. Qed.
Print Assumptions C113_clusters.

(** Seven pixels, the first and the last in one cluster: the sum is (9 + 1) / 7. *)
Example C113_case : shapes true [7] [7] /\ good_shape [7] /\ is_image [7] (mkimg [7] [1; 1; 0; 1; 0; 0; 1]) /\
  exists lab, clusters true [7] [1; 1; 0; 1; 0; 0; 1] true = Ok lab /\ squared_sizes lab = 10.
Proof.
  split. { repeat split; try reflexivity; repeat constructor; cbn; intuition discriminate. }
  split. { split; [discriminate|split; [repeat constructor; discriminate|reflexivity]]. }
  split. { split; reflexivity. }
  eexists. split; vm_compute; reflexivity.
Qed.
