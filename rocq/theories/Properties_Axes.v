(** * Properties_Axes: C139

    Definitions used in the statements: [SpecAxes.v] (what it is to put the axes of an image in
    another order), [SpecSymmetry.v] ([carried]), [SpecMoved.v], [SpecLinealMoved.v],
    [SpecCluster.v], [SpecDilate.v], [SpecEnsemble.v], and the models. *)

From Coq Require Import ZArith QArith Qcanon List Bool Lia Permutation.
From Verif Require Import Base Cluster SpecCluster SpecSymmetry Path Dilate SpecDilate Ensemble SpecEnsemble SpecMoved SpecLinealMoved Center
  SpecAxes AxesLaws AxesEnsemble AxesCenter.
Import ListNotations.
Open Scope Z_scope.

(** ** C139 No axis is special: the axes of an image may be put in any order *)

(** Every pixel goes somewhere, and to one place only. *)
Theorem C139_every_pixel_is_moved : forall order shape, axes order (length shape) -> Forall (fun n => 0 < n) shape ->
  (forall p, pixel shape p -> exists p', permutes order shape p p') /\
  (forall p', pixel (arranged 0 order shape) p' -> exists p, permutes order shape p p') /\
  (forall p p' p'', permutes order shape p p' -> permutes order shape p p'' -> p' = p'') /\
  (forall p q p', permutes order shape p p' -> permutes order shape q p' -> p = q).
Proof. intros order shape HO HS. exact (proj2 (permutes_matching order shape HO (fun _ _ => HS))). Qed.
Print Assumptions C139_every_pixel_is_moved.

(** The reversal of C67, C69, C115, C125 and C129 is one of the orders. *)
Theorem C139_transposing_is_one : forall shape p q, axes (rev (seq 0 (length shape))) (length shape) /\
  (permutes (rev (seq 0 (length shape))) shape p q <-> transposes shape p q).
Proof. exact reversed_axes. Qed.
Print Assumptions C139_transposing_is_one.

Theorem C139_clusters : forall asrt order shape img img' per, good_shape shape -> (length shape <= 3)%nat -> axes order (length shape) ->
  lenZ img = zprod shape -> lenZ img' = zprod shape -> carried (permutes order shape) img img' ->
  exists lab lab', clusters asrt shape img per = Ok lab /\ clusters asrt (arranged 0 order shape) img' per = Ok lab' /\
    forall p q p' q', permutes order shape p p' -> permutes order shape q q' ->
      (zn lab p = 0 <-> zn lab' p' = 0) /\ (zn lab p = zn lab q <-> zn lab' p' = zn lab' q').
Proof. exact permuted_clusters. Qed.
Print Assumptions C139_clusters.

(** Dilation, with the axes of the kernel in the same order. *)
Theorem C139_dilation : forall asrt order shape f f' ks kv kv' n per, dilatable_n per shape f ks kv -> dilatable_n per (arranged 0 order shape) f' (arranged 0 order ks) kv' ->
  0 <= n -> axes order (length shape) -> carried (permutes order shape) f f' -> carried (permutes order ks) kv kv' ->
  exists a b, dilate_n asrt shape f ks kv n per = Ok a /\ dilate_n asrt (arranged 0 order shape) f' (arranged 0 order ks) kv' n per = Ok b /\
    forall p p', permutes order shape p p' -> (zn a p <> 0 <-> zn b p' <> 0).
Proof. exact permuted_dilation. Qed.
Print Assumptions C139_dilation.

(** Statistics over pairs of pixels, with the axes of the region of interest in the same order. *)
Theorem C139_statistics : forall asrt order per var roi shape c c', shapes per roi shape -> axes order (length shape) ->
  carried_call (permutes order shape) shape (arranged 0 order shape) c c' ->
  exists e e', fresh asrt roi per var c = Ok e /\ fresh asrt (arranged 0 order roi) per var c' = Ok e' /\
    forall r r', permutes order roi r r' -> same_at e r e' r'.
Proof. exact permuted_statistics. Qed.
Print Assumptions C139_statistics.

(** [L] and [W2c] along [Bresenham] and [actual] paths ([full]: C115). *)
Theorem C139_paths : forall asrt order per var roi shape c c', shapes per roi shape -> axes order (length shape) ->
  carried_walk (permutes order shape) shape (arranged 0 order shape) c c' -> walks_in roi c -> walks_in (arranged 0 order roi) c -> ~ goes_by full c ->
  exists e e', fresh asrt roi per var c = Ok e /\ fresh asrt (arranged 0 order roi) per var c' = Ok e' /\
    forall r r', permutes order roi r r' -> same_at e r e' r'.
Proof. exact permuted_paths. Qed.
Print Assumptions C139_paths.

(** Centers of labels, and centers of mass, in any rank. *)
Theorem C139_centers : forall asrt order shape labels labels' names per, good_shape shape -> axes order (length shape) ->
  lenZ labels = zprod shape -> lenZ labels' = zprod shape -> carried (permutes order shape) labels labels' ->
  exists rows, labels_centers asrt shape labels names per = Ok rows /\
    labels_centers asrt (arranged 0 order shape) labels' names per = Ok (map (arranged Center.NaN order) rows).
Proof. exact permuted_centers. Qed.
Print Assumptions C139_centers.

Theorem C139_centers_of_mass : forall asrt order shape labels labels' w w' names per, good_shape shape -> axes order (length shape) ->
  lenZ labels = zprod shape -> lenZ labels' = zprod shape -> lenZ w = zprod shape -> lenZ w' = zprod shape ->
  carried (permutes order shape) labels labels' -> carried (permutes order shape) w w' ->
  exists rows, labels_centers_of_mass asrt shape labels shape w names per = Ok rows /\
    labels_centers_of_mass asrt (arranged 0 order shape) labels' (arranged 0 order shape) w' names per = Ok (map (arranged Center.NaN order) rows).
Proof. exact permuted_masses. Qed.
Print Assumptions C139_centers_of_mass.

(** The last axis made the first ([np.moveaxis(a, -1, 0)]), which no reversal does. *)
Example C139_case :
  axes [2; 0; 1]%nat 3 /\ arranged 0 [2; 0; 1]%nat [2; 1; 3] = [3; 2; 1] /\
  (forall A (a b c d e f : A), carried (permutes [2; 0; 1]%nat [2; 1; 3]) [a;b;c; d;e;f] [a;d; b;e; c;f]) /\
  clusters true [2; 1; 3] [1;0;1; 0;1;1] false = Ok [1;0;2; 0;2;2] /\
  clusters true [3; 2; 1] [1;0; 0;1; 1;1] false = Ok [1;0; 0;2; 2;2] /\
  dilate_n true [2; 1; 3] [0;3;0; 0;0;0] [1; 1; 3] [1;1;0] 1 false = Ok [3;3;0; 0;0;0] /\
  dilate_n true [3; 2; 1] [0;0; 3;0; 0;0] [3; 1; 1] [1;1;0] 1 false = Ok [3;0; 3;0; 0;0] /\
  shapes false [1; 1; 3] [2; 1; 3] /\ walks_in [1; 1; 3] (CallL (mkimg [2; 1; 3] [0;1;1; 0;1;0]) Bresenham) /\
  walks_in [3; 1; 1] (CallL (mkimg [2; 1; 3] [0;1;1; 0;1;0]) Bresenham) /\
  (exists e, fresh true [1; 1; 3] false true (CallL (mkimg [2; 1; 3] [0;1;1; 0;1;0]) Bresenham) = Ok e /\ data_first e = map zq [1; 6; 1]) /\
  (exists e, fresh true [3; 1; 1] false true (CallL (mkimg [3; 2; 1] [0;0; 1;1; 1;0]) Bresenham) = Ok e /\ data_first e = map zq [1; 6; 1]) /\
  (exists e, fresh true [1; 1; 3] false true (CallS2 (mkimg [2; 1; 3] (map zq [1;2;3; 4;5;6])) (mkimg [2; 1; 3] (map zq [1;0;0; 1;1;0])) None) = Ok e /\ data_first e = map zq [13; 10; 4]) /\
  (exists e, fresh true [3; 1; 1] false true (CallS2 (mkimg [3; 2; 1] (map zq [1;4; 2;5; 3;6])) (mkimg [3; 2; 1] (map zq [1;1; 0;1; 0;0])) None) = Ok e /\ data_first e = map zq [13; 10; 4]).
Proof.
  split. { unfold axes. cbn. etransitivity; [apply perm_swap|]. apply perm_skip. apply perm_swap. }
  split; [reflexivity|].
  split. { intros A a b c d e f p q (Hp & Hq & M). unfold pixel in Hp, Hq. cbn [zprod arranged map nth] in Hp, Hq.
    assert (P : p = 0 \/ p = 1 \/ p = 2 \/ p = 3 \/ p = 4 \/ p = 5) by lia.
    assert (Q : q = 0 \/ q = 1 \/ q = 2 \/ q = 3 \/ q = 4 \/ q = 5) by lia.
    decompose [or] P; subst p; decompose [or] Q; subst q; try reflexivity; vm_compute in M; discriminate. }
  split; [vm_compute; reflexivity|]. split; [vm_compute; reflexivity|]. split; [vm_compute; reflexivity|]. split; [vm_compute; reflexivity|].
  split. { unfold shapes. split; [reflexivity|]. split; [cbn; lia|]. split; [repeat constructor; lia|]. split; [repeat constructor; lia|]. discriminate. }
  split; [cbn; repeat constructor; lia|]. split; [cbn; repeat constructor; lia|].
  repeat split; eexists; (split; [vm_compute; reflexivity|vm_compute; reflexivity]).
Qed.
