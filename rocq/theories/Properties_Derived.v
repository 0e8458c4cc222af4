(** * Properties_Derived: C65 - C67

    How [clusters] behaves on pairs of related images.  Statements only. *)

From Coq Require Import ZArith List Bool Lia.
From Verif Require Import Base Cluster Labels SpecCluster SpecSymmetry DerivedCluster.
Import ListNotations.
Open Scope Z_scope.

(** ** C65 Adding foreground, or making the box periodic, never splits a cluster *)
Theorem C65_growing_never_splits :
  forall asrt shape img img' per per', good_shape shape -> (length shape <= 3)%nat ->
  lenZ img = zprod shape -> lenZ img' = zprod shape ->
  (forall p, pixel shape p -> zn img p <> 0 -> zn img' p <> 0) ->
  (per = true -> per' = true) ->
  exists lab lab', clusters asrt shape img per = Ok lab /\ clusters asrt shape img' per' = Ok lab' /\
    forall p q, pixel shape p -> pixel shape q -> zn lab p <> 0 -> zn lab p = zn lab q ->
      zn lab' p <> 0 /\ zn lab' p = zn lab' q.
Proof. exact clusters_grow. Qed.
Print Assumptions C65_growing_never_splits.

Example C65_case : good_shape [2; 3] /\ lenZ [1;0;1; 1;0;1] = zprod [2; 3] /\
  (forall p, pixel [2; 3] p -> zn [1;0;1; 1;0;1] p <> 0 -> zn [1;0;1; 1;1;1] p <> 0) /\
  clusters true [2; 3] [1;0;1; 1;0;1] false = Ok [1;0;2; 1;0;2] /\
  clusters true [2; 3] [1;0;1; 1;1;1] false = Ok [1;0;1; 1;1;1] /\
  clusters true [2; 3] [1;0;1; 1;0;1] true = Ok [1;0;1; 1;0;1].
Proof.
  split; [repeat split; try discriminate; repeat constructor; lia|]. split; [reflexivity|].
  split; [|repeat split; reflexivity].
  intros p Hp. unfold pixel in Hp. cbn in Hp.
  assert (p = 0 \/ p = 1 \/ p = 2 \/ p = 3 \/ p = 4 \/ p = 5) as D by lia.
  decompose [or] D; subst; cbn; try discriminate; auto.
Qed.

(** ** C66 Labels are a fixed point of labelling and of pruning *)
Theorem C66_labelling_labels_changes_nothing :
  forall asrt shape img per, good_shape shape -> (length shape <= 3)%nat -> lenZ img = zprod shape ->
  exists lab, clusters asrt shape img per = Ok lab /\ clusters asrt shape lab per = Ok lab /\
    labels_prune asrt lab = Ok lab.
Proof. exact clusters_idempotent. Qed.
Print Assumptions C66_labelling_labels_changes_nothing.

(** Only which pixels are non-zero matters. *)
Theorem C66_only_the_support_matters :
  forall asrt shape img img' per, good_shape shape -> (length shape <= 3)%nat ->
  lenZ img = zprod shape -> lenZ img' = zprod shape ->
  (forall p, pixel shape p -> (zn img p = 0 <-> zn img' p = 0)) ->
  clusters asrt shape img per = clusters asrt shape img' per.
Proof. exact same_partition_same_labels. Qed.
Print Assumptions C66_only_the_support_matters.

Example C66_case : good_shape [2; 3] /\ lenZ [7;0;-2; 9;0;4] = zprod [2; 3] /\
  clusters true [2; 3] [7;0;-2; 9;0;4] false = Ok [1;0;2; 1;0;2] /\
  clusters true [2; 3] [1;0;2; 1;0;2] false = Ok [1;0;2; 1;0;2] /\
  labels_prune true [1;0;2; 1;0;2] = Ok [1;0;2; 1;0;2].
Proof.
  split; [repeat split; try discriminate; repeat constructor; lia|]. repeat split; reflexivity.
Qed.

(** ** C67 Rolling, flipping and transposing *)
Theorem C67_rolling_a_periodic_image :
  forall asrt shape d img img', good_shape shape -> (length shape <= 3)%nat ->
  length d = length shape -> lenZ img = zprod shape -> lenZ img' = zprod shape ->
  carried (rolls d shape) img img' ->
  exists lab lab', clusters asrt shape img true = Ok lab /\ clusters asrt shape img' true = Ok lab' /\
    forall p q p' q', rolls d shape p p' -> rolls d shape q q' ->
      (zn lab p = 0 <-> zn lab' p' = 0) /\ (zn lab p = zn lab q <-> zn lab' p' = zn lab' q').
Proof. exact roll_clusters. Qed.
Print Assumptions C67_rolling_a_periodic_image.

Theorem C67_flipping :
  forall asrt shape which img img' per, good_shape shape -> (length shape <= 3)%nat ->
  length which = length shape -> lenZ img = zprod shape -> lenZ img' = zprod shape ->
  carried (flips which shape) img img' ->
  exists lab lab', clusters asrt shape img per = Ok lab /\ clusters asrt shape img' per = Ok lab' /\
    forall p q p' q', flips which shape p p' -> flips which shape q q' ->
      (zn lab p = 0 <-> zn lab' p' = 0) /\ (zn lab p = zn lab q <-> zn lab' p' = zn lab' q').
Proof. exact flip_clusters. Qed.
Print Assumptions C67_flipping.

Theorem C67_transposing :
  forall asrt shape img img' per, good_shape shape -> (length shape <= 3)%nat ->
  lenZ img = zprod shape -> lenZ img' = zprod shape ->
  carried (transposes shape) img img' ->
  exists lab lab', clusters asrt shape img per = Ok lab /\ clusters asrt (rev shape) img' per = Ok lab' /\
    forall p q p' q', transposes shape p p' -> transposes shape q q' ->
      (zn lab p = 0 <-> zn lab' p' = 0) /\ (zn lab p = zn lab q <-> zn lab' p' = zn lab' q').
Proof. exact transpose_clusters. Qed.
Print Assumptions C67_transposing.

(** The three relations are one-to-one between the pixels, so "every pixel" is meant. *)
Theorem C67_every_pixel_is_moved :
  forall d which shape, good_shape shape -> length d = length shape -> length which = length shape ->
  forall T, In T [rolls d shape; flips which shape; transposes shape] ->
  (forall p, pixel shape p -> exists p', T p p') /\
  (forall p p' p'', T p p' -> T p p'' -> p' = p'') /\ (forall p q p', T p p' -> T q p' -> p = q).
Proof. exact symmetries_one_to_one. Qed.
Print Assumptions C67_every_pixel_is_moved.

Example C67_case :
  carried (rolls [0; 1] [2; 3]) [1;0;1; 0;1;0] [1;1;0; 0;0;1] /\
  carried (flips [true; false] [2; 3]) [1;0;1; 0;1;0] [0;1;0; 1;0;1] /\
  carried (transposes [2; 3]) [1;0;1; 0;1;0] [1;0; 0;1; 1;0] /\
  clusters true [2; 3] [1;0;1; 0;1;0] true = Ok [1;0;1; 0;2;0] /\
  clusters true [2; 3] [1;1;0; 0;0;1] true = Ok [1;1;0; 0;0;2] /\
  clusters true [2; 3] [0;1;0; 1;0;1] true = Ok [0;1;0; 2;0;2] /\
  clusters true [3; 2] [1;0; 0;1; 1;0] true = Ok [1;0; 0;2; 1;0].
Proof.
  assert (D : forall p, pixel [2; 3] p -> p = 0 \/ p = 1 \/ p = 2 \/ p = 3 \/ p = 4 \/ p = 5)
    by (intros p Hp; unfold pixel in Hp; cbn in Hp; lia).
  assert (D' : forall p, pixel [3; 2] p -> p = 0 \/ p = 1 \/ p = 2 \/ p = 3 \/ p = 4 \/ p = 5)
    by (intros p Hp; unfold pixel in Hp; cbn in Hp; lia).
  repeat split; try reflexivity.
  - intros p q (Hp & Hq & HM). apply D in Hp. apply D in Hq.
    decompose [or] Hp; decompose [or] Hq; subst; vm_compute in HM; first [reflexivity|exfalso; intuition discriminate].
  - intros p q (Hp & Hq & HM). apply D in Hp. apply D in Hq.
    decompose [or] Hp; decompose [or] Hq; subst; vm_compute in HM; first [reflexivity|exfalso; intuition discriminate].
  - intros p q (Hp & Hq & HM). apply D in Hp. apply D' in Hq.
    decompose [or] Hp; decompose [or] Hq; subst; cbn in HM |- *; first [discriminate HM|reflexivity].
Qed.
