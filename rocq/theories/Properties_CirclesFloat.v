(** * Properties_CirclesFloat: C104 ([dummy_circles] with IEEE 754 numbers)

    [accurate root]: the square root has an error below one unit in the last place
    (SpecCirclesFloat).  Exact arithmetic: Circles.v, C50, C59. *)

From Coq Require Import ZArith Reals List Bool Lia Lra.
From Flocq Require Import Core BinarySingleNaN.
From Verif Require Import Base Circles SpecCircles Double CirclesFloat SpecCirclesFloat CirclesFloatProofs CirclesFloatGrid CirclesFloatTop.
Import ListNotations.
Open Scope Z_scope.

(** Up to a radius of 2^26 the image is that of exact arithmetic, ... *)
Theorem C104_circles_exact_partial : forall root asrt shape row col r per, accurate root -> (forall x, In x r -> x <= 2 ^ 26) ->
  fdummy_circles root asrt shape row col r per = dummy_circles asrt shape row col r per.
Proof. exact fdummy_exact. Qed.
Print Assumptions C104_circles_exact_partial.

(** ... but not for 2^26 + 1: a circle that ends one column before the image covers its only
    pixel, even if the square root is that of IEEE 754. *)
Theorem C104_circles_refuted : accurate dsqrt /\
  dummy_circles true [1; 1] [- 2 ^ 26] [-1] [2 ^ 26 + 1] false = Ok [0] /\
  fdummy_circles dsqrt true [1; 1] [- 2 ^ 26] [-1] [2 ^ 26 + 1] false = Ok [1].
Proof. exact (conj dsqrt_accurate circles_too_large). Qed.
Print Assumptions C104_circles_refuted.

(** Random circles: on the grid of C59, with radii of at most twice the default one, which is
    the radius asked for up to a relative error of 2^-48, rounded down. *)
Theorem C104_random_circles : forall root asrt n m per draws, accurate root ->
  20 <= n <= 2 ^ 28 -> 20 <= m <= 2 ^ 28 -> n * m <= 2 ^ 53 ->
  n / 20 * (m / 20) <= lenZ draws -> Forall (valid_fdraw n m) draws ->
  exists out row col r radius, fdummy_circles_random root asrt [n; m] per draws = Ok out /\
    dummy_circles asrt [n; m] row col r per = Ok out /\ on_grid n m row col /\ lenZ r = lenZ row /\
    (forall k, 0 <= k < lenZ r -> 0 <= zn r k <= 2 * radius) /\
    (ideal_radius n m * (1 - / IZR (2 ^ 48)) - 1 < IZR radius <= ideal_radius n m * (1 + / IZR (2 ^ 48)))%R.
Proof. exact random_in_doubles. Qed.
Print Assumptions C104_random_circles.

(** With the numbers of the generator (multiples of 2^-32), and unless the radius asked for is
    almost a whole number, the image is exactly that of exact arithmetic. *)
Theorem C104_random_circles_exact : forall root asrt n m per draws, accurate root ->
  20 <= n <= 2 ^ 28 -> 20 <= m <= 2 ^ 28 -> n * m <= 2 ^ 53 ->
  Forall (valid_fdraw n m) draws -> Forall of_32_bits draws -> ~ almost_integer (ideal_radius n m) ->
  fdummy_circles_random root asrt [n; m] per draws = dummy_circles_random asrt [n; m] per (map exact_draw draws).
Proof. exact random_same. Qed.
Print Assumptions C104_random_circles_exact.

Definition C104_draws : list fdraw := [mkfdraw 0 0 dzero; mkfdraw 19 3 PathFloat.half].
Example C104_case : accurate dsqrt /\ Forall (valid_fdraw 20 40) C104_draws /\ Forall of_32_bits C104_draws /\
  ~ almost_integer (ideal_radius 20 40) /\
  ftwentieth 40 = 2 /\ fdefault_radius dsqrt 20 40 = 6 /\ fscaled_radius 6 PathFloat.half = 6 /\
  map (fun k => fgrid_row 20 40 k (mkfdraw 19 3 PathFloat.half)) [0; 1] = [9; 9] /\
  map (fun k => fgrid_col 20 40 k (mkfdraw 19 3 PathFloat.half)) [0; 1] = [-7; 13] /\
  (exists out, fdummy_circles_random dsqrt true [20; 40] true C104_draws = Ok out /\ zn out 0 = 0 /\ zn out 373 = 1).
Proof.
  destruct PathFloatProofs.half_value as [H1 H2].
  split; [exact dsqrt_accurate|]. split.
  { apply Forall_cons; [|apply Forall_cons; [|constructor]]; unfold valid_fdraw; cbn [fw_row fw_col fw_rad];
      change (20 / (2 * (20 / 20))) with 10; change (40 / (2 * (40 / 20))) with 10; (split; [lia|split; [lia|]]).
    - split; [reflexivity|]. cbn [B2R dzero]. lra.
    - split; [exact H1|]. rewrite H2. lra. }
  split.
  { apply Forall_cons; [|apply Forall_cons; [|constructor]]; unfold of_32_bits; cbn [fw_rad].
    - exists 0. cbn [B2R dzero]. unfold Rdiv. lra.
    - exists (2 ^ 31). rewrite H2. change (2 ^ 31) with 2147483648. change (2 ^ 32) with 4294967296. lra. }
  split; [exact ideal_400|]. do 5 (split; [vm_compute; reflexivity|]). eexists. split; [vm_compute; reflexivity|]. split; vm_compute; reflexivity.
Qed.
