(** * Properties_LinealMoved: C115

    Definitions used in the statements: [SpecSymmetry.v] (what rolling, flipping and transposing
    are), [SpecMoved.v], [SpecLinealMoved.v], [SpecEnsemble.v], and the model [Ensemble.v]. *)

From Coq Require Import ZArith QArith Qcanon List Bool Lia.
From Verif Require Import Base SpecCluster SpecSymmetry Path Ensemble SpecEnsemble SpecMoved SpecLinealMoved LinealMovedTop LinealMovedCase W2cRolled.
Import ListNotations.
Open Scope Z_scope.

(** ** C115 L and W2c follow the image *)

(** Rolling a periodic image (for [W2c]: all images and the mask) changes nothing, ... *)
Theorem C115_rolled : forall asrt var roi shape d c c', shapes true roi shape -> length d = length shape ->
  carried_walk (rolls d shape) shape shape c c' -> walks_in roi c ->
  same_data (fresh asrt roi true var c) (fresh asrt roi true var c').
Proof. exact roll_walk. Qed.
Print Assumptions C115_rolled.

(** ... also for a region of interest whose last two half sizes differ, for which [W2c] has its
    counts elsewhere, or leaves the array (C137): then it does so for both images. *)
Theorem C115_rolled_every_region : forall asrt var roi shape d cl ce f m cl' ce' f' m' mode, shapes true roi shape -> length d = length shape ->
  carried_walk (rolls d shape) shape shape (CallW2c cl ce f m mode) (CallW2c cl' ce' f' m' mode) -> walkable mode roi ->
  let c := fresh asrt roi true var (CallW2c cl ce f m mode) in
  let c' := fresh asrt roi true var (CallW2c cl' ce' f' m' mode) in
  (c = UB /\ c' = UB) \/
  exists e e', c = Ok e /\ c' = Ok e' /\ forall t, pixel roi t -> first_at e t = first_at e' t /\ norm_at e t = norm_at e' t /\ result_at e t = result_at e' t.
Proof. exact roll_anywhere. Qed.
Print Assumptions C115_rolled_every_region.

(** ... flipping axes flips the result, in every mode, if the region of interest is odd along
    these axes, ... *)
Theorem C115_flipped_partial : forall asrt per var roi shape which c c', shapes per roi shape -> length which = length shape -> odd_along which roi ->
  carried_walk (flips which shape) shape shape c c' -> walks_in roi c ->
  exists e e', fresh asrt roi per var c = Ok e /\ fresh asrt roi per var c' = Ok e' /\ roi_shaped roi e /\ roi_shaped roi e' /\
    forall r r', pixel roi r -> pixel roi r' -> offset roi r' = flipped_offset which (offset roi r) -> same_at e r e' r'.
Proof. exact flip_walk. Qed.
Print Assumptions C115_flipped_partial.

(** ... and transposing transposes the result, for [Bresenham] and [actual]. *)
Theorem C115_transposed_partial : forall asrt per var roi shape c c', shapes per roi shape ->
  carried_walk (transposes shape) shape (rev shape) c c' -> walks_in roi c -> walks_in (rev roi) c -> ~ goes_by full c ->
  exists e e', fresh asrt roi per var c = Ok e /\ fresh asrt (rev roi) per var c' = Ok e' /\ roi_shaped roi e /\ roi_shaped (rev roi) e' /\
    forall r r', pixel roi r -> pixel (rev roi) r' -> offset (rev roi) r' = rev (offset roi r) -> same_at e r e' r'.
Proof. exact transpose_walk. Qed.
Print Assumptions C115_transposed_partial.

(** With a region of interest of even size the end points of the paths are not symmetric: [L] of
    the flipped image is not the flipped [L] (1/18 and 1/16). *)
Theorem C115_flipped_refuted : exists roi shape which c c' e e' r r', shapes true roi shape /\ length which = length shape /\
  carried_walk (flips which shape) shape shape c c' /\ goes_by full c /\ walks_in roi c /\
  fresh true roi true true c = Ok e /\ fresh true roi true true c' = Ok e' /\ pixel roi r /\ pixel roi r' /\
  offset roi r' = flipped_offset which (offset roi r) /\ result_at e r = Exact (1 / zq 16)%Qc /\ result_at e' r' = Exact (1 / zq 18)%Qc.
Proof. exact flip_even. Qed.
Print Assumptions C115_flipped_refuted.

(** [full] goes along the first axis first: [L] of the transposed image is not the transposed
    [L] (1/4 and 0). *)
Theorem C115_transposed_refuted : exists roi shape c c' e e' r r', shapes false roi shape /\
  carried_walk (transposes shape) shape (rev shape) c c' /\ goes_by full c /\ walks_in roi c /\ walks_in (rev roi) c /\
  fresh true roi false true c = Ok e /\ fresh true (rev roi) false true c' = Ok e' /\ pixel roi r /\ pixel (rev roi) r' /\
  offset (rev roi) r' = rev (offset roi r) /\ result_at e r = Exact 0%Qc /\ result_at e' r' = Exact (1 / zq 4)%Qc.
Proof. exact transpose_full. Qed.
Print Assumptions C115_transposed_refuted.

(** Two clusters of a masked image, flipped and transposed, and a row of five pixels rolled. *)
Example C115_case :
  (shapes false [5; 3] [3; 4] /\ odd_along [false; true] [5; 3] /\ walks_in [5; 3] (CallW2c W_cl W_ce W_f (Some W_m) full) /\
   carried_walk (flips [false; true] [3; 4]) [3; 4] [3; 4] (CallW2c W_cl W_ce W_f (Some W_m) full) (CallW2c F_cl F_ce F_f (Some F_m) full) /\
   (exists e, fresh true [5; 3] false true (CallW2c W_cl W_ce W_f (Some W_m) full) = Ok e /\ data_first e = map zq [0;0;0; 0;10;0; 0;107;0; 23;113;31; 0;0;0]) /\
   exists e, fresh true [5; 3] false true (CallW2c F_cl F_ce F_f (Some F_m) full) = Ok e /\ data_first e = map zq [0;0;0; 0;10;0; 0;107;0; 31;113;23; 0;0;0]) /\
  (walks_in [5; 3] (CallW2c W_cl W_ce W_f (Some W_m) Bresenham) /\ walks_in [3; 5] (CallW2c W_cl W_ce W_f (Some W_m) Bresenham) /\
   carried_walk (transposes [3; 4]) [3; 4] [4; 3] (CallW2c W_cl W_ce W_f (Some W_m) Bresenham) (CallW2c T_cl T_ce T_f (Some T_m) Bresenham) /\
   (exists e, fresh true [5; 3] false true (CallW2c W_cl W_ce W_f (Some W_m) Bresenham) = Ok e /\ data_first e = map zq [0;0;0; 0;0;0; 0;121;0; 23;29;31; 0;0;0]) /\
   exists e, fresh true [3; 5] false true (CallW2c T_cl T_ce T_f (Some T_m) Bresenham) = Ok e /\ data_first e = map zq [0;0;0;23;0; 0;0;121;29;0; 0;0;0;31;0]) /\
  (shapes true [5] [5] /\ walks_in [5] (CallL R_f Bresenham) /\ carried_walk (rolls [2] [5]) [5] [5] (CallL R_f Bresenham) (CallL R_rolled Bresenham) /\
   (exists e, fresh true [5] true true (CallL R_f Bresenham) = Ok e /\ data_first e = map zq [0; 1; 6; 1; 0]) /\
   exists e, fresh true [5] true true (CallL R_rolled Bresenham) = Ok e /\ data_first e = map zq [0; 1; 6; 1; 0]).
Proof. exact moved_case. Qed.

(** A row of five pixels rolled by two, with a region of interest of unequal half sizes. *)
Example C115_every_region_case : ~ even_sided [1; 3; 5] /\ shapes true [1; 3; 5] [1; 1; 5] /\ walkable Bresenham [1; 3; 5] /\
  carried_walk (rolls [0; 0; 2] [1; 1; 5]) [1; 1; 5] [1; 1; 5]
    (CallW2c (mkimg [1; 1; 5] [1;1;1;1;1]) (mkimg [1; 1; 5] [0;0;1;0;0]) (mkimg [1; 1; 5] (map zq [1;2;3;4;5])) None Bresenham)
    (CallW2c (mkimg [1; 1; 5] [1;1;1;1;1]) (mkimg [1; 1; 5] [0;0;0;0;1]) (mkimg [1; 1; 5] (map zq [4;5;1;2;3])) None Bresenham) /\
  exists e, fresh true [1; 3; 5] true true (CallW2c (mkimg [1; 1; 5] [1;1;1;1;1]) (mkimg [1; 1; 5] [0;0;0;0;1]) (mkimg [1; 1; 5] (map zq [4;5;1;2;3])) None Bresenham) = Ok e /\
    map this (norm e) = map inject_Z [1;0;1;0;0; 1;12;1;0;0; 1;0;1;0;0].
Proof. exact rolled_case. Qed.
