(** * Properties_Lineal: C40, C41, C42

    See properties.jsonl for the English statements; the specification is in SpecEnsemble.v
    and SpecPath.v. *)

From Coq Require Import ZArith QArith Qcanon List Bool Lia.
From Verif Require Import Base SpecCluster SpecDilate SpecPath Path Ensemble SpecEnsemble
  EnsembleL EnsembleW2c EnsembleRefute.
Import ListNotations.
Open Scope Z_scope.

(** ** C40 *)
Theorem C40_L_counts_free_paths : forall asrt per var roi shape f mode,
  shapes per roi shape -> is_image shape f -> walkable mode roi ->
  exists e paths, fresh asrt roi per var (CallL f mode) = Ok e /\ roi_shaped roi e /\ paths_of mode (three roi) paths /\
    forall r, pixel roi r ->
      let d := offset (three roi) r in
      let walks := list_prod paths (pixels shape) in
      let free := fun walk : list (list Z) * Z => reaches (in_phase per (three shape) (i_vals f) (snd walk)) d (fst walk) in
      let through := fun walk : list (list Z) * Z => visits d (fst walk) in
      first_at e r = zq (lenZ (filter free walks)) /\
      norm_at e r = zq (lenZ (filter through walks)) /\
      result_at e r = Exact (quotient (first_at e r) (norm_at e r)).
Proof. exact L_counts. Qed.
Print Assumptions C40_L_counts_free_paths.

Theorem C40_L_probability : forall asrt per var roi shape f mode,
  shapes per roi shape -> is_image shape f -> walkable mode roi ->
  exists e, fresh asrt roi per var (CallL f mode) = Ok e /\
    forall r, pixel roi r -> exists q, result_at e r = Exact q /\ (0 <= q)%Qc /\ (q <= 1)%Qc.
Proof. exact L_bounds. Qed.
Print Assumptions C40_L_probability.

(** The centre holds the volume fraction, if the region of interest has more than one pixel. *)
Theorem C40_L_centre_partial : forall asrt per var roi shape f mode,
  shapes per roi shape -> is_image shape f -> walkable mode roi -> (exists n, In n roi /\ 1 < n) ->
  exists e, fresh asrt roi per var (CallL f mode) = Ok e /\
    forall r, pixel roi r -> zero_offset (offset roi r) -> result_at e r = Exact (phase_fraction shape (i_vals f)).
Proof. exact L_centre. Qed.
Print Assumptions C40_L_centre_partial.

Theorem C40_L_centre_refuted : exists roi shape f e, shapes false roi shape /\ is_image shape f /\ walkable Bresenham roi /\
  fresh true roi false true (CallL f Bresenham) = Ok e /\ pixel roi 0 /\ zero_offset (offset roi 0) /\
  result_at e 0 <> Exact (phase_fraction shape (i_vals f)).
Proof. exact L_unit_roi. Qed.
Print Assumptions C40_L_centre_refuted.

(** The restriction on axes of two pixels in [walkable] is needed. *)
Theorem C40_L_other_modes_refuted : exists roi shape f, shapes false roi shape /\ is_image shape f /\
  fresh true roi false true (CallL f actual) = UB /\ fresh true roi false true (CallL f full) = UB.
Proof. exact L_axis_two. Qed.
Print Assumptions C40_L_other_modes_refuted.

Example C40_case :
  (e <- fresh true [3; 3] true true (CallL (mkimg [3; 3] [1;1;0; 1;0;0; 1;1;1]) Bresenham) ;;
   Ok (map this (data_first e), map this (norm e))) =
  Ok (map inject_Z [3; 4; 4; 4; 48; 4; 4; 4; 3], map inject_Z [9; 9; 9; 9; 72; 9; 9; 9; 9]) /\
  shapes true [3; 3] [3; 3] /\ walkable Bresenham [3; 3] /\ walkable full [3; 3] /\
  edge (three [3]) = [[0; -1; 0]; [0; 1; 0]] /\
  in_phase false [1; 3; 1] [1; 0; 1] 1 [0; 1; 0] = true /\ in_phase false [1; 3; 1] [1; 0; 1] 2 [0; 1; 0] = false /\
  in_phase true [1; 3; 1] [1; 0; 1] 2 [0; 1; 0] = true /\
  reaches (in_phase true [1; 3; 1] [1; 0; 1] 2) [0; 1; 0] [[0; 0; 0]; [0; 1; 0]; [0; 2; 0]] = true /\
  reaches (in_phase true [1; 3; 1] [1; 0; 1] 2) [0; 2; 0] [[0; 0; 0]; [0; 1; 0]; [0; 2; 0]] = false.
Proof.
  split; [vm_compute; reflexivity|]. split.
  { split; auto. split; [cbn; lia|]. split; [repeat (constructor; [lia|]); constructor|]. split; [repeat (constructor; [lia|]); constructor|].
    intros _. vm_compute. repeat split; discriminate. }
  split; [repeat (constructor; [lia|]); constructor|]. split; [repeat (constructor; [lia|]); constructor|]. repeat split; vm_compute; reflexivity.
Qed.

(** ** C41 *)

(** [W2c] counts pixels inside the cluster. *)
Theorem C41_W2c_skips_cluster_refuted : exists roi shape clusters centers f e r,
  shapes false roi shape /\ is_image shape clusters /\ is_image shape centers /\ is_image shape f /\
  (forall p, pixel shape p -> zn (i_vals clusters) p = 0 \/ zn (i_vals clusters) p = 1) /\
  (forall p, pixel shape p -> zn (i_vals clusters) p = 0 -> qn (i_vals f) p = 0%Qc) /\
  fresh true roi false true (CallW2c clusters centers f None Bresenham) = Ok e /\ pixel roi r /\ first_at e r <> 0%Qc.
Proof. exact W2c_inside_counts. Qed.
Print Assumptions C41_W2c_skips_cluster_refuted.

(** What it does instead: the centre itself is skipped, nothing else. *)
Theorem C41_W2c_skips_one_pixel_partial : forall asrt per var roi shape mode,
  shapes per roi shape -> walkable mode roi -> even_sided roi ->
  exists paths, paths_of mode (three roi) paths /\
  forall cl ce f fm, is_image shape cl -> is_image shape ce -> is_image shape f -> is_mask shape fm ->
  exists e, fresh asrt roi per var (CallW2c cl ce f (Some fm) mode) = Ok e /\ roi_shaped roi e /\
    forall r, pixel roi r -> let l := counted per roi shape (i_vals cl) (i_vals ce) (i_vals fm) paths r in
      first_at e r = sum_over l (fun w => value_at per (three shape) (i_vals f) (snd w) (snd (fst w))) /\
      norm_at e r = zq (lenZ l) /\
      result_at e r = Exact (quotient (first_at e r) (norm_at e r)).
Proof. exact W2c_exact. Qed.
Print Assumptions C41_W2c_skips_one_pixel_partial.

(** So the extent of the clusters has no influence, only their centres do. *)
Theorem C41_W2c_ignores_extent : forall asrt per var roi shape mode cl cl' ce f fm,
  shapes per roi shape -> walkable mode roi -> even_sided roi ->
  is_image shape cl -> is_image shape cl' -> is_image shape ce -> is_image shape f -> is_mask shape fm ->
  (forall p, pixel shape p -> cluster_centre (i_vals cl) (i_vals ce) p = cluster_centre (i_vals cl') (i_vals ce) p) ->
  exists e e', fresh asrt roi per var (CallW2c cl ce f (Some fm) mode) = Ok e /\
    fresh asrt roi per var (CallW2c cl' ce f (Some fm) mode) = Ok e' /\
    forall r, pixel roi r -> first_at e r = first_at e' r /\ norm_at e r = norm_at e' r /\ result_at e r = result_at e' r.
Proof. exact W2c_extent_ignored. Qed.
Print Assumptions C41_W2c_ignores_extent.

Example C41_case :
  (e <- fresh true [5] false true (CallW2c (z1 [0;0;1;1;1;0;0;0]) (z1 [0;0;0;1;0;0;0;0]) (q1 [0;2;3;5;7;9;0;0]) None Bresenham) ;;
   Ok (map this (data_first e), map this (norm e))) = Ok (map inject_Z [0; 2; 10; 9; 0], map inject_Z [0; 1; 2; 1; 0]) /\
  cluster_centre [0;0;1;1;1;0;0;0] [0;0;0;1;0;0;0;0] 3 = true /\ cluster_centre [0;0;1;1;1;0;0;0] [0;0;0;1;0;0;0;0] 2 = false /\
  cluster_centre [0;0;0;1;0;0;0;0] [0;0;0;1;0;0;0;0] 3 = true /\
  steps [[[0; 0; 0]; [0; 1; 0]; [0; 2; 0]]] = [([0; 0; 0], [0; 1; 0]); ([0; 1; 0], [0; 2; 0])] /\
  even_sided [5] /\ even_sided [3; 5] /\ even_sided [9; 5; 6] /\ walkable Bresenham [9; 5; 6].
Proof.
  split; [vm_compute; reflexivity|]. do 4 (split; [vm_compute; reflexivity|]). split; [exact I|]. split; [exact I|]. split; [right; reflexivity|].
  repeat (constructor; [lia|]). constructor.
Qed.

(** ** C42 *)
Theorem C42_W2c_stays_inside_refuted : exists roi shape clusters centers f,
  shapes false roi shape /\ is_image shape clusters /\ is_image shape centers /\ is_image shape f /\ walkable Bresenham roi /\
  fresh true roi false true (CallW2c clusters centers f None Bresenham) = UB.
Proof. exact W2c_outside. Qed.
Print Assumptions C42_W2c_stays_inside_refuted.

Theorem C42_W2c_right_place_refuted : exists roi shape clusters centers f e,
  shapes false roi shape /\ is_image shape clusters /\ is_image shape centers /\ is_image shape f /\ walkable Bresenham roi /\
  fresh true roi false true (CallW2c clusters centers f None Bresenham) = Ok e /\
  zero_offset (offset roi 7) /\ (exists p, cluster_centre (i_vals clusters) (i_vals centers) p = true) /\
  (norm_at e 7 < norm_at e 6)%Qc.
Proof. exact W2c_misplaced. Qed.
Print Assumptions C42_W2c_right_place_refuted.

(** For rank one and two, and if the half sizes of the last two axes agree. *)
Theorem C42_W2c_stays_inside_partial : forall asrt per var roi shape mode cl ce f fm,
  shapes per roi shape -> walkable mode roi -> even_sided roi ->
  is_image shape cl -> is_image shape ce -> is_image shape f -> is_mask shape fm ->
  exists e, fresh asrt roi per var (CallW2c cl ce f (Some fm) mode) = Ok e /\ roi_shaped roi e.
Proof. exact W2c_inside. Qed.
Print Assumptions C42_W2c_stays_inside_partial.

Example C42_case :
  (e <- fresh true [1; 3; 3] false true (CallW2c (mkimg [1; 1; 5] [1;1;1;1;1]) (mkimg [1; 1; 5] [0;0;1;0;0]) (mkimg [1; 1; 5] (map zq [1;2;3;4;5])) None Bresenham) ;;
   Ok (map this (data_first e), map this (norm e))) =
  Ok (map inject_Z [0;0;0; 0;6;0; 0;0;0], map inject_Z [0;0;0; 0;8;0; 0;0;0]) /\ even_sided [1; 3; 3].
Proof. split; [vm_compute; reflexivity|right; reflexivity]. Qed.
