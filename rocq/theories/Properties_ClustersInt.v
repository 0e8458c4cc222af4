(** * Properties_ClustersInt: C127

    Statements only; each is closed by a lemma proved elsewhere.  [clusters_int] is what the user
    gets: the labels of [clusters] converted to [int]. *)

From Coq Require Import ZArith List Bool Lia.
From Verif Require Import Base Cluster SpecCluster LabelsTyped ClustersInt ClustersIntProofs.
Import ListNotations.
Open Scope Z_scope.

(** ** C127: the labels are those of C01 and C02 as long as there are fewer than 2^31 clusters,
    so in every image of fewer than 2^31 pixels ... *)
Theorem C127_labels_are_ints_partial : forall asrt shape img per, good_shape shape -> (length shape <= 3)%nat ->
  lenZ img = zprod shape ->
  exists lab, clusters asrt shape img per = Ok lab /\
    (Z.of_nat (nclusters lab) < 2 ^ 31 -> clusters_int asrt shape img per = Ok lab) /\
    (zprod shape < 2 ^ 31 -> Z.of_nat (nclusters lab) < 2 ^ 31).
Proof. exact clusters_int_exact. Qed.
Print Assumptions C127_labels_are_ints_partial.

(** ... they are right modulo 2^32 in every image ... *)
Theorem C127_labels_modulo : forall asrt shape img per, good_shape shape -> (length shape <= 3)%nat -> lenZ img = zprod shape ->
  exists lab out, clusters asrt shape img per = Ok lab /\ clusters_int asrt shape img per = Ok out /\ lenZ out = zprod shape /\
    forall p, pixel shape p -> - 2 ^ 31 <= zn out p < 2 ^ 31 /\ (zn out p - zn lab p) mod 2 ^ 32 = 0.
Proof. exact clusters_int_mod. Qed.
Print Assumptions C127_labels_modulo.

(** ... and there is an image (every second of 2^32 + 1 pixels) in which one is negative. *)
Theorem C127_labels_refuted : exists shape img lab out p, good_shape shape /\ lenZ img = zprod shape /\
  clusters true shape img false = Ok lab /\ clusters_int true shape img false = Ok out /\
  pixel shape p /\ zn img p <> 0 /\ zn lab p = 2 ^ 31 /\ zn out p = - 2 ^ 31.
Proof. exact clusters_int_refuted. Qed.
Print Assumptions C127_labels_refuted.

Example C127_case : good_shape [3; 4] /\ lenZ [1;0;0;1; 1;0;2;0; 0;0;5;0] = zprod [3; 4] /\
  clusters_int true [3; 4] [1;0;0;1; 1;0;2;0; 0;0;5;0] false = Ok [1;0;0;2; 1;0;3;0; 0;0;3;0].
Proof.
  split; [split; [discriminate|split; [repeat constructor; discriminate|reflexivity]]|].
  split; vm_compute; reflexivity.
Qed.
