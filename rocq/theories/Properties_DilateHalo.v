(** * Properties_DilateHalo: C138, and C25 away from the boundary of a periodic image

    Statements only; each is closed by a lemma proved elsewhere. *)

From Coq Require Import ZArith List Bool Lia.
From Verif Require Import Base SpecCluster Array3 Dilate SpecDilate SpecDilateHalo DilateHalo DilateHaloOne DilateHaloMore.
Import ListNotations.
Open Scope Z_scope.

(** ** C138: the whole result of a periodic [dilate], whatever the numbers of iterations: [n] passes, [n] the largest
    of them, over the image and its surroundings. *)
Theorem C138_passes : forall asrt shape f ks kv iterations, dilatable true shape f ks kv iterations ->
  exists n, In (Z.of_nat n) iterations /\ (forall m, In m iterations -> m <= Z.of_nat n) /\
    dilate asrt shape f ks kv iterations true =
      Ok (map (passes (triple shape) (triple ks) kv iterations n (tiled (triple shape) f)) (pixels (triple shape))).
Proof. exact halo_ok. Qed.
Print Assumptions C138_passes.

(** With one iteration: a label reached over the lower end of an axis counts more than one reached over the upper end,
    and that more than one reached within the image; among those reached in the same way the last pixel counts. *)
Theorem C138_one_pass : forall asrt shape f ks kv iterations, dilatable true shape f ks kv iterations -> (forall m, In m iterations -> m <= 1) ->
  let n := triple shape in let k := triple ks in let v := tiled n f in
  exists r, dilate asrt shape f ks kv iterations true = Ok (map r (pixels n)) /\ forall q, in_image n q ->
    (v q <> 0 -> r q = v q) /\
    (v q = 0 -> (forall p s, ~ passes_to n k kv iterations v p s q) -> r q = 0) /\
    (forall p s, v q = 0 -> passes_to n k kv iterations v p s q ->
      (forall p' s', passes_to n k kv iterations v p' s' q -> weight s' < weight s \/ s' = s /\ (p' = p \/ later p p')) -> r q = v p).
Proof. exact one_pass. Qed.
Print Assumptions C138_one_pass.

(** Pixel 2 is reached from pixel 1, and over the lower end from pixel 0, which counts more. *)
Example C138_case :
  dilatable true [3] [1;2;0] [3] [1;1;1] [0; 1; 1] /\
  dilate true [3] [1;2;0] [3] [1;1;1] [0; 1; 1] true = Ok [1;2;1] /\
  passes_to (1, 3, 1) (1, 3, 1) [1;1;1] [0;1;1] (tiled (1, 3, 1) [1;2;0]) (0, 1, 0) (0, 0, 0) (0, 2, 0) /\
  passes_to (1, 3, 1) (1, 3, 1) [1;1;1] [0;1;1] (tiled (1, 3, 1) [1;2;0]) (0, 0, 0) (0, -1, 0) (0, 2, 0) /\
  weight (0, 0, 0) < weight (0, 1, 0) < weight (0, -1, 0).
Proof.
  split.
  { unfold dilatable, image, kernel. cbn [length].
    split; [lia|]. split; [split; [repeat constructor; lia|reflexivity]|]. split; [reflexivity|].
    split; [split; [repeat constructor; lia|reflexivity]|]. split; [simpl; intros; lia|].
    split; [intros _; vm_compute; split; [discriminate|auto]|]. split; [discriminate|].
    split; [simpl; intros; lia|]. change (lenZ [0;1;1]) with 3. simpl. intros; lia. }
  split; [vm_compute; reflexivity|]. split; [|split].
  - split; [intros []; cbn; lia|]. split; [intros []; cbn; lia|]. repeat split; vm_compute; discriminate || reflexivity.
  - split; [intros []; cbn; lia|]. split; [intros []; cbn; lia|]. repeat split; vm_compute; discriminate || reflexivity.
  - vm_compute. auto.
Qed.

(** Two passes: in the second one pixel 0, which already has a label, is overwritten from around the image. *)
Example C138_second_pass :
  dilate true [5] [0;1;0;2;0] [3] [1;1;1] [0; 2; 2] true = Ok [2;1;2;2;1] /\
  map (passes (1, 5, 1) (1, 3, 1) [1;1;1] [0;2;2] 1 (tiled (1, 5, 1) [0;1;0;2;0])) (pixels (1, 5, 1)) = [1;1;2;2;2] /\
  map (passes (1, 5, 1) (1, 3, 1) [1;1;1] [0;2;2] 2 (tiled (1, 5, 1) [0;1;0;2;0])) (pixels (1, 5, 1)) = [2;1;2;2;1].
Proof. vm_compute. auto. Qed.

(** ** C25: in a periodic image labels can change only where the kernel reaches over a boundary. *)
Theorem C25_more_iterations_keep_labels_periodic_partial : forall asrt shape f ks kv n, dilatable_n true shape f ks kv -> 0 <= n ->
  exists r r', dilate_n asrt shape f ks kv n true = Ok (map r (pixels (triple shape))) /\
    dilate_n asrt shape f ks kv (n + 1) true = Ok (map r' (pixels (triple shape))) /\
    forall q, away (triple shape) (triple ks) q -> r q <> 0 -> r' q = r q.
Proof. exact more_away. Qed.
Print Assumptions C25_more_iterations_keep_labels_periodic_partial.

(** Pixel 1 keeps label 1, pixel 0 does not. *)
Example C25_periodic_case : dilatable_n true [5] [0;1;0;2;0] [3] [1;1;1] /\
  away (1, 5, 1) (1, 3, 1) (0, 1, 0) /\ ~ away (1, 5, 1) (1, 3, 1) (0, 0, 0) /\
  dilate_n true [5] [0;1;0;2;0] [3] [1;1;1] 1 true = Ok [1;1;2;2;2] /\
  dilate_n true [5] [0;1;0;2;0] [3] [1;1;1] 2 true = Ok [2;1;2;2;1].
Proof.
  split.
  { unfold dilatable_n, image, kernel. cbn [length].
    split; [lia|]. split; [split; [repeat constructor; lia|reflexivity]|]. split; [reflexivity|].
    split; [split; [repeat constructor; lia|reflexivity]|]. split; [simpl; intros; lia|].
    split; [intros _; vm_compute; split; [discriminate|auto]|]. simpl. intros; lia. }
  split; [intros []; vm_compute; split; congruence|]. split; [intros H; specialize (H Ax1); vm_compute in H; destruct H; congruence|].
  vm_compute. auto.
Qed.
