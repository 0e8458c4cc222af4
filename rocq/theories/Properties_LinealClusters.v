(** * Properties_LinealClusters: C110

    The lineal path function against the two-point cluster function.  Statements only;
    [result_at], [walkable], [shapes], [fresh] are defined in SpecEnsemble, [good_kernel],
    [set_offset], ... in SpecCluster, [coverable] in SpecLineal, [along] in SpecAxis. *)

From Coq Require Import ZArith QArith Qcanon List Bool Lia.
From Verif Require Import Base Cluster SpecCluster SpecDilate Path Ensemble SpecEnsemble SpecLineal SpecAxis LinealClusters LinealClustersCase AxisClusters.
Import ListNotations.
Open Scope Z_scope.

(** ** C110 L is at most C2 of the clusters *)

(** With paths whose steps are all to a face neighbour. *)
Theorem C110_full_below_C2_partial :
  forall asrt per var roi shape f, shapes per roi shape -> good_shape shape -> is_image shape f -> walkable full roi ->
  exists lab e e', clusters asrt shape (i_vals f) per = Ok lab /\
    fresh asrt roi per var (CallL f full) = Ok e /\
    fresh asrt roi per var (CallC2 (mkimg shape lab) (mkimg shape lab) None) = Ok e' /\
    forall r, pixel roi r -> exists l c, result_at e r = Exact l /\ result_at e' r = Exact c /\ (l <= c)%Qc.
Proof. exact L_below_C2. Qed.
Print Assumptions C110_full_below_C2_partial.

(** The other paths also step along diagonals. *)
Theorem C110_default_path_refuted : exists roi shape f lab e e' r l c, shapes false roi shape /\ good_shape shape /\ is_image shape f /\ walkable Bresenham roi /\
  clusters true shape (i_vals f) false = Ok lab /\
  fresh true roi false true (CallL f Bresenham) = Ok e /\
  fresh true roi false true (CallC2 (mkimg shape lab) (mkimg shape lab) None) = Ok e' /\
  pixel roi r /\ result_at e r = Exact l /\ result_at e' r = Exact c /\ (c < l)%Qc.
Proof. exact bresenham_above. Qed.
Print Assumptions C110_default_path_refuted.

Theorem C110_actual_path_refuted : exists roi shape f lab e e' r l c, shapes false roi shape /\ good_shape shape /\ is_image shape f /\ walkable actual roi /\
  clusters true shape (i_vals f) false = Ok lab /\
  fresh true roi false true (CallL f actual) = Ok e /\
  fresh true roi false true (CallC2 (mkimg shape lab) (mkimg shape lab) None) = Ok e' /\
  pixel roi r /\ result_at e r = Exact l /\ result_at e' r = Exact c /\ (c < l)%Qc.
Proof. exact actual_above. Qed.
Print Assumptions C110_actual_path_refuted.

(** They are bounded by C2 of clusters of a kernel that has the diagonals. *)
Theorem C110_any_path_below_C2_with_diagonals :
  forall asrt per var roi shape f mode ks kv, shapes per roi shape -> good_shape shape -> is_image shape f -> walkable mode roi ->
  good_kernel shape ks kv -> kernel_symmetric ks kv -> offsets_in_range per shape (set_offset ks kv) ->
  (forall d, length d = length shape -> Forall (fun x => -1 <= x <= 1) d -> set_offset ks kv d) ->
  exists g s outs e e', make_kernel asrt shape per ks kv = Ok g /\ Cluster.run asrt g [AddImage shape (i_vals f)] = Ok (s, outs) /\
    fresh asrt roi per var (CallL f mode) = Ok e /\
    fresh asrt roi per var (CallC2 (mkimg shape (c_label s)) (mkimg shape (c_label s)) None) = Ok e' /\
    forall r, pixel roi r -> exists l c, result_at e r = Exact l /\ result_at e' r = Exact c /\ (l <= c)%Qc.
Proof. exact L_below_C2_diagonal. Qed.
Print Assumptions C110_any_path_below_C2_with_diagonals.

(** An image of two clusters, and the kernel of all neighbours. *)
Example C110_case :
  shapes true [3; 3] [3; 4] /\ good_shape [3; 4] /\ is_image [3; 4] (mkimg [3; 4] [1;1;0;0; 0;1;0;0; 0;0;1;0]) /\ walkable full [3; 3] /\
  clusters true [3; 4] [1;1;0;0; 0;1;0;0; 0;0;1;0] false = Ok [1;1;0;0; 0;1;0;0; 0;0;2;0] /\
  clusters true [3; 4] [1;1;0;0; 0;1;0;0; 0;0;1;0] true = Ok [1;1;0;0; 0;1;0;0; 0;0;2;0].
Proof. exact two_clusters. Qed.

Example C110_diagonals_case :
  good_kernel [3; 4] [3; 3] [1;1;1; 1;1;1; 1;1;1] /\ kernel_symmetric [3; 3] [1;1;1; 1;1;1; 1;1;1] /\
  offsets_in_range false [3; 4] (set_offset [3; 3] [1;1;1; 1;1;1; 1;1;1]) /\
  (forall d, length d = length [3; 4] -> Forall (fun x => -1 <= x <= 1) d -> set_offset [3; 3] [1;1;1; 1;1;1; 1;1;1] d).
Proof. exact all_neighbours. Qed.

(** Along an axis the bound holds for every kind of path. *)
Theorem C110_axes_below_C2 : forall asrt per var roi shape f mode, shapes per roi shape -> good_shape shape -> is_image shape f -> coverable mode roi -> (exists n, In n roi /\ 1 < n) ->
  exists lab e e', clusters asrt shape (i_vals f) per = Ok lab /\
    fresh asrt roi per var (CallL f mode) = Ok e /\
    fresh asrt roi per var (CallC2 (mkimg shape lab) (mkimg shape lab) None) = Ok e' /\
    forall r a t, pixel roi r -> (a < length roi)%nat -> offset roi r = along (length roi) a t ->
      exists l c, result_at e r = Exact l /\ result_at e' r = Exact c /\ (l <= c)%Qc.
Proof. exact L_axis_below_C2. Qed.
Print Assumptions C110_axes_below_C2.

(** A corner of three pixels: one pixel away L is 1/4 (one of the four pixels) and C2 is 1/2 (one of the
    two pairs). *)
Example C110_axes_case : let f := mkimg [2; 2] [1; 1; 1; 0] in
  shapes false [3; 3] [2; 2] /\ good_shape [2; 2] /\ is_image [2; 2] f /\ coverable Bresenham [3; 3] /\ (exists n, In n [3; 3] /\ 1 < n) /\
  offset [3; 3] 5 = along 2 1 1 /\ clusters true [2; 2] (i_vals f) false = Ok [1; 1; 1; 0] /\
  (exists e, fresh true [3; 3] false true (CallL f Bresenham) = Ok e /\ result_at e 5 = Exact (zq 1 / zq 4)%Qc) /\
  (exists e, fresh true [3; 3] false true (CallC2 (mkimg [2; 2] [1; 1; 1; 0]) (mkimg [2; 2] [1; 1; 1; 0]) None) = Ok e /\ result_at e 5 = Exact (zq 1 / zq 2)%Qc).
Proof.
  cbv zeta. split. { unfold shapes. split; [reflexivity|]. split; [cbn; lia|]. split; [repeat constructor; lia|]. split; [repeat constructor; lia|]. discriminate. }
  split. { split; [discriminate|]. split; [repeat constructor; lia|reflexivity]. } split; [split; reflexivity|]. split. { cbn. repeat constructor; lia. }
  split. { exists 3. split; [left; reflexivity|lia]. } split; [reflexivity|]. split; [vm_compute; reflexivity|].
  split; (eexists; split; [vm_compute; reflexivity|vm_compute; reflexivity]).
Qed.
