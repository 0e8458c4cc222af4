(** * Properties_Collapse: C131

    Each theorem is closed by [exact] of a lemma; definitions used in the statements:
    [SpecCollapse.v], [SpecEnsemble.v], [SpecCenter.v], and the models [Collapse.v], [Cluster.v], [Ensemble.v]. *)

From Coq Require Import ZArith QArith Qcanon Reals List Bool Lia.
From Verif Require Import Base SpecCluster Cluster SpecCenter SpecPath Path Ensemble SpecEnsemble Collapse SpecCollapse CollapseProofs CollapseMean CollapseTop CollapseCase CollapseEdge SpecW2cSlide CollapseAny.
Import ListNotations.
Open Scope Z_scope.

(** ** C131 The documented use of W2c *)

(** Every label has one pixel closest to its center, ... *)
Theorem C131_one_center_each : forall per shape labels v, shape <> [] -> Forall (fun n => 1 <= n) shape -> lenZ labels = zprod shape ->
  occurs shape labels v -> exists! p, centre_pixel per shape labels v p.
Proof. exact (fun per shape labels v N F L => collapse_centres per shape labels N F L v). Qed.
Print Assumptions C131_one_center_each.

(** ... which without periodicity is the mean of its pixels, rounded, halves to even. *)
Theorem C131_center_is_rounded_mean : forall shape labels v p, shape <> [] -> Forall (fun n => 1 <= n) shape -> lenZ labels = zprod shape ->
  occurs shape labels v -> (centre_pixel false shape labels v p <-> mean_pixel shape labels v p).
Proof. exact (fun shape labels v p N F L => mean_centre shape labels F v p). Qed.
Print Assumptions C131_center_is_rounded_mean.

(** The image of centers never fails to be made; a pixel carries the highest of the labels that
    have their center there, 0 if there is none.  The smallest label of the image is left out. *)
Theorem C131_centers : forall asrt per shape labels, shape <> [] -> Forall (fun n => 1 <= n) shape -> lenZ labels = zprod shape ->
  exists ce, collapse asrt shape labels per = Ok ce /\ lenZ ce = zprod shape /\
  forall p, pixel shape p ->
    (forall v, named shape labels v -> centre_pixel per shape labels v p ->
       (forall w, named shape labels w -> centre_pixel per shape labels w p -> w <= v) -> zn ce p = v) /\
    ((forall v, named shape labels v -> ~ centre_pixel per shape labels v p) -> zn ce p = 0).
Proof. exact collapse_ok. Qed.
Print Assumptions C131_centers.

(** [W2c] of these centers collects from the center pixels of exactly the labels that [counts]. *)
Theorem C131_W2c_exactly : forall asrt per var roi shape mode, shapes per roi shape -> walkable mode roi -> even_sided roi -> shape <> [] ->
  exists paths, paths_of mode (three roi) paths /\
  forall labels f fm, lenZ labels = zprod shape -> is_image shape f -> is_mask shape fm ->
  exists ce e vs cs, collapse asrt shape labels per = Ok ce /\
    fresh asrt roi per var (CallW2c (mkimg shape labels) (mkimg shape ce) f (Some fm) mode) = Ok e /\
    NoDup vs /\ (forall v, In v vs <-> counts per shape labels v) /\ Forall2 (centre_pixel per shape labels) vs cs /\
    forall r, pixel roi r ->
      first_at e r = collected per roi shape paths (i_vals fm) cs (value_at per (three shape) (i_vals f)) r /\
      norm_at e r = collected per roi shape paths (i_vals fm) cs (fun _ _ => 1%Qc) r /\
      result_at e r = Exact (quotient (first_at e r) (norm_at e r)).
Proof. exact W2c_collapsed. Qed.
Print Assumptions C131_W2c_exactly.

(** The same for every region of interest: if its last two half sizes differ the totals are
    elsewhere, or outside of the array (C137). *)
Theorem C131_W2c_every_region : forall asrt per var roi shape mode, shapes per roi shape -> walkable mode roi -> shape <> [] ->
  exists paths, paths_of mode (three roi) paths /\
  forall labels f fm, lenZ labels = zprod shape -> is_image shape f -> is_mask shape fm ->
  exists ce vs cs, collapse asrt shape labels per = Ok ce /\
    NoDup vs /\ (forall v, In v vs <-> counts per shape labels v) /\ Forall2 (centre_pixel per shape labels) vs cs /\
    let total := collected per roi shape paths (i_vals fm) cs in
    let call := fresh asrt roi per var (CallW2c (mkimg shape labels) (mkimg shape ce) f (Some fm) mode) in
    ((exists r, pixel roi r /\ total (fun _ _ => 1%Qc) r <> 0%Qc /\ ~ pixel roi (r + slide roi)) -> call = UB) /\
    ((forall r, pixel roi r -> total (fun _ _ => 1%Qc) r <> 0%Qc -> pixel roi (r + slide roi)) ->
     exists e, call = Ok e /\
     (forall r, pixel roi r -> pixel roi (r + slide roi) ->
        first_at e (r + slide roi) = total (value_at per (three shape) (i_vals f)) r /\
        norm_at e (r + slide roi) = total (fun _ _ => 1%Qc) r) /\
     (forall t, pixel roi t -> ~ pixel roi (t - slide roi) -> first_at e t = 0%Qc /\ norm_at e t = 0%Qc) /\
     (forall t, pixel roi t -> result_at e t = Exact (quotient (first_at e t) (norm_at e t)))).
Proof. exact W2c_collapsed_any. Qed.
Print Assumptions C131_W2c_every_region.

Example C131_every_region_case : ~ even_sided [1; 3; 5] /\ slide [1; 3; 5] = -1 /\ shapes false [1; 3; 5] [1; 1; 6] /\ walkable Bresenham [1; 3; 5] /\
  is_image [1; 1; 6] (mkimg [1; 1; 6] (map zq [1;2;3;4;5;6])) /\ is_mask [1; 1; 6] (mkimg [1; 1; 6] [0;0;0;1;0;0]) /\
  counts false [1; 1; 6] [0;1;1;1;0;2] 1 /\ counts false [1; 1; 6] [0;1;1;1;0;2] 2.
Proof. exact any_case. Qed.

(** Every cluster counts if there is background and all clusters contain their centers ... *)
Theorem C131_every_cluster_counts_partial : forall asrt per shape img lab, good_shape shape -> (length shape <= 3)%nat -> Forall (fun n => 1 <= n) shape -> lenZ img = zprod shape ->
  clusters asrt shape img per = Ok lab -> (exists p, pixel shape p /\ zn img p = 0) ->
  (forall v p, v <> 0 -> occurs shape lab v -> centre_pixel per shape lab v p -> zn lab p = v) ->
  forall v, counts per shape lab v <-> v <> 0 /\ occurs shape lab v.
Proof. exact all_count. Qed.
Print Assumptions C131_every_cluster_counts_partial.

(** ... but not a cluster around a hole, ... *)
Theorem C131_hole_refuted : exists shape img lab ce f e, clusters true shape img true = Ok lab /\ (exists p, pixel shape p /\ zn img p = 0) /\
  (exists p, pixel shape p /\ zn img p <> 0) /\ collapse true shape lab true = Ok ce /\ is_image shape f /\
  fresh true [3; 3] true true (CallW2c (mkimg shape lab) (mkimg shape ce) f None Bresenham) = Ok e /\ forall r, pixel [3; 3] r -> norm_at e r = 0%Qc.
Proof. exact concave_lost. Qed.
Print Assumptions C131_hole_refuted.

(** ... not the first cluster of an image without background, ... *)
Theorem C131_no_background_refuted : exists shape img lab ce f e, clusters true shape img true = Ok lab /\
  (forall v p, v <> 0 -> occurs shape lab v -> centre_pixel true shape lab v p -> zn lab p = v) /\
  (exists p, pixel shape p /\ zn img p <> 0) /\ collapse true shape lab true = Ok ce /\ is_image shape f /\
  fresh true [3] true true (CallW2c (mkimg shape lab) (mkimg shape ce) f None Bresenham) = Ok e /\ forall r, pixel [3] r -> norm_at e r = 0%Qc.
Proof. exact full_lost. Qed.
Print Assumptions C131_no_background_refuted.

(** ... and not a cluster that contains its center, if another cluster has its center there. *)
Theorem C131_same_center_refuted : exists shape img lab ce f e p, clusters true shape img false = Ok lab /\ (exists p, pixel shape p /\ zn img p = 0) /\
  centre_pixel false shape lab 1 p /\ zn lab p = 1 /\ collapse true shape lab false = Ok ce /\ is_image shape f /\
  fresh true [3; 3] false true (CallW2c (mkimg shape lab) (mkimg shape ce) f None Bresenham) = Ok e /\ forall r, pixel [3; 3] r -> norm_at e r = 0%Qc.
Proof. exact overwritten. Qed.
Print Assumptions C131_same_center_refuted.

(** In a periodic image the pixel is not the nearest: a center in the last half pixel of an axis
    is nearest to the first pixel, and is put on the last. *)
Theorem C131_nearest_refuted : exists shape img lab ce p b, clusters true shape img true = Ok lab /\ collapse true shape lab true = Ok ce /\
  (exists q, pixel shape q /\ zn img q = 0) /\ center_along true shape lab 1 1 b /\ (IZR (nth 1 shape 0%Z) - / 2 < b < IZR (nth 1 shape 0%Z))%R /\
  pixel shape p /\ zn ce p = 1 /\ nth 1 (coords shape p) 0 = nth 1 shape 0 - 1.
Proof. exact clipped. Qed.
Print Assumptions C131_nearest_refuted.

Example C131_case : clusters true [6] [0;1;1;1;0;1] false = Ok [0;1;1;1;0;2] /\ mean_pixel [6] [0;1;1;1;0;2] 1 2 /\ mean_pixel [6] [0;1;1;1;0;2] 2 5 /\
  (forall v p, v <> 0 -> occurs [6] [0;1;1;1;0;2] v -> centre_pixel false [6] [0;1;1;1;0;2] v p -> zn [0;1;1;1;0;2] p = v) /\
  counts false [6] [0;1;1;1;0;2] 1 /\ counts false [6] [0;1;1;1;0;2] 2 /\
  collapse true [6] [0;1;1;1;0;2] false = Ok [0;0;1;0;0;2].
Proof. exact dots_case. Qed.
