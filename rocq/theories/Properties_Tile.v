(** * Properties_Tile: C120

    See properties.jsonl for the English statement; the specification is in SpecEnsemble.v,
    SpecMoved.v, SpecLinealMoved.v and SpecTile.v. *)

From Coq Require Import ZArith QArith Qcanon List Bool Lia.
From Verif Require Import Base SpecCluster SpecSymmetry Path SpecPath Ensemble SpecEnsemble SpecMoved SpecLinealMoved SpecTile TileTop W2cTiled.
Import ListNotations.
Open Scope Z_scope.

(** ** C120 *)

(** Without masks (and, for [W2], without negative weights) the two-point statistics of a
    periodic image repeated along its axes are those of the image; the sums are multiplied by
    the number of copies. *)
Theorem C120_two_point_partial : forall asrt var roi times shape c c',
  shapes true roi shape -> length times = length shape -> Forall (fun n => 1 <= n) times ->
  carried_call (copy_of times shape) shape (tiled times shape) c c' -> no_mask c -> not_negative c ->
  exists e e', fresh asrt roi true var c = Ok e /\ fresh asrt roi true var c' = Ok e' /\
    forall r, pixel roi r -> multiplied (zprod times) e e' r.
Proof. exact tile_two_point. Qed.
Print Assumptions C120_two_point_partial.

(** [L] and [W2c], the latter with or without a mask. *)
Theorem C120_along_paths : forall asrt var roi times shape c c',
  shapes true roi shape -> length times = length shape -> Forall (fun n => 1 <= n) times ->
  carried_walk (copy_of times shape) shape (tiled times shape) c c' -> walks_in roi c ->
  exists e e', fresh asrt roi true var c = Ok e /\ fresh asrt roi true var c' = Ok e' /\
    forall r, pixel roi r -> multiplied (zprod times) e e' r.
Proof. exact tile_walk. Qed.
Print Assumptions C120_along_paths.

(** ... [W2c] also for regions of interest whose last two half sizes differ (C137). *)
Theorem C120_W2c_every_region : forall roi times shape, shapes true roi shape -> length times = length shape -> Forall (fun n => 1 <= n) times ->
  forall asrt var cl ce f m cl' ce' f' m' mode,
  carried_walk (copy_of times shape) shape (tiled times shape) (CallW2c cl ce f m mode) (CallW2c cl' ce' f' m' mode) -> walkable mode roi ->
  let c := fresh asrt roi true var (CallW2c cl ce f m mode) in
  let c' := fresh asrt roi true var (CallW2c cl' ce' f' m' mode) in
  (c = UB /\ c' = UB) \/
  exists e e', c = Ok e /\ c' = Ok e' /\
    forall t, pixel roi t -> first_at e' t = (zq (zprod times) * first_at e t)%Qc /\ norm_at e' t = (zq (zprod times) * norm_at e t)%Qc /\ result_at e' t = result_at e t.
Proof. exact tile_anywhere. Qed.
Print Assumptions C120_W2c_every_region.

(** Five pixels repeated twice: the counts are doubled, and one element too early as for the
    image itself. *)
Example C120_every_region_case :
  let cl := mkimg [1; 1; 5] [1;1;1;1;1] in
  let ce := mkimg [1; 1; 5] [0;0;1;0;0] in
  let f := mkimg [1; 1; 5] (map zq [1;2;3;4;5]) in
  let cl' := mkimg [1; 1; 10] [1;1;1;1;1; 1;1;1;1;1] in
  let ce' := mkimg [1; 1; 10] [0;0;1;0;0; 0;0;1;0;0] in
  let f' := mkimg [1; 1; 10] (map zq [1;2;3;4;5; 1;2;3;4;5]) in
  ~ even_sided [1; 3; 5] /\ shapes true [1; 3; 5] [1; 1; 5] /\ walkable Bresenham [1; 3; 5] /\ tiled [1; 1; 2] [1; 1; 5] = [1; 1; 10] /\
  carried_walk (copy_of [1; 1; 2] [1; 1; 5]) [1; 1; 5] (tiled [1; 1; 2] [1; 1; 5]) (CallW2c cl ce f None Bresenham) (CallW2c cl' ce' f' None Bresenham) /\
  exists e, fresh true [1; 3; 5] true true (CallW2c cl' ce' f' None Bresenham) = Ok e /\ map this (norm e) = map inject_Z [2;0;2;0;0; 2;24;2;0;0; 2;0;2;0;0].
Proof.
  cbv zeta. split; [intros H; vm_compute in H; intuition discriminate|].
  split. { split; auto. split; [cbn; lia|]. split; [repeat (constructor; [lia|]); constructor|]. split; [repeat (constructor; [lia|]); constructor|].
    intros _. vm_compute. repeat split; discriminate. }
  split; [repeat (constructor; [lia|]); constructor|]. split; [reflexivity|].
  split. { split; [|split; [|split; [|split; [exact I|reflexivity]]]]; (split; [split; reflexivity|]; split; [split; reflexivity|]; by_cases). }
  eexists. split; vm_compute; reflexivity.
Qed.

(** With masks the result changes: across the periodic boundary the mask of the second pixel
    is not looked at (C36). *)
Theorem C120_masked_refuted : exists roi shape f g m m2 f' g' m' m2' e e' r, shapes true roi shape /\
  carried_call (copy_of [2] shape) shape (tiled [2] shape) (CallS2 f g (Some (m, m2))) (CallS2 f' g' (Some (m', m2'))) /\
  fresh true roi true true (CallS2 f g (Some (m, m2))) = Ok e /\ fresh true roi true true (CallS2 f' g' (Some (m', m2'))) = Ok e' /\
  pixel roi r /\ result_at e r = Exact (1 / zq 3)%Qc /\ result_at e' r = Exact (zq 2 / zq 5)%Qc.
Proof. exact tile_masked. Qed.
Print Assumptions C120_masked_refuted.

(** With negative weights the result changes: a normalisation that is not positive is replaced
    by one. *)
Theorem C120_negative_refuted : exists roi shape w f w' f' e e' r, shapes true roi shape /\
  carried_call (copy_of [2] shape) shape (tiled [2] shape) (CallW2 w f None) (CallW2 w' f' None) /\
  fresh true roi true true (CallW2 w f None) = Ok e /\ fresh true roi true true (CallW2 w' f' None) = Ok e' /\
  pixel roi r /\ result_at e r = Exact (zq (-2)) /\ result_at e' r = Exact (zq (-4)).
Proof. exact tile_negative. Qed.
Print Assumptions C120_negative_refuted.

(** An image of two lines repeated twice along both axes. *)
Example C120_case :
  let w := mkimg [2; 2] (map zq [1;2; 0;3]) in
  let w' := mkimg [4; 4] (map zq [1;2;1;2; 0;3;0;3; 1;2;1;2; 0;3;0;3]) in
  let f := mkimg [2; 2] [1;0; 1;1] in
  let f' := mkimg [4; 4] [1;0;1;0; 1;1;1;1; 1;0;1;0; 1;1;1;1] in
  shapes true [3; 3] [2; 2] /\ tiled [2; 2] [2; 2] = [4; 4] /\
  carried_call (copy_of [2; 2] [2; 2]) [2; 2] (tiled [2; 2] [2; 2]) (CallW2 w w None) (CallW2 w' w' None) /\
  no_mask (CallW2 w w None) /\ not_negative (CallW2 w w None) /\
  carried_walk (copy_of [2; 2] [2; 2]) [2; 2] (tiled [2; 2] [2; 2]) (CallL f actual) (CallL f' actual) /\
  walks_in [3; 3] (CallL f actual).
Proof.
  cbv zeta. split. { split; [reflexivity|]. split; [cbn; lia|]. split; [repeat constructor; lia|]. split; [repeat constructor; lia|]. intros _. vm_compute. repeat split; discriminate. }
  split; [reflexivity|]. split. { split; [|split; [|exact I]]; (split; [split; reflexivity|]; split; [split; reflexivity|]; by_cases). }
  split; [exact I|]. split. { cbn [not_negative i_vals map]. repeat (constructor; [vm_compute; discriminate|]). constructor. }
  split. { split; [|reflexivity]. split; [split; reflexivity|]. split; [split; reflexivity|]. by_cases. }
  cbn. repeat constructor; lia.
Qed.
