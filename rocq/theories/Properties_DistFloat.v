(** * Properties_DistFloat: distances of the elements of the region of interest in floating point (C147)

    C32 and C33 say what [distance] returns, computed exactly.  Here it returns doubles.  [dn d r]
    is element [r] of [d]. *)

From Coq Require Import ZArith Reals List Bool Lia.
From Flocq Require Import Core BinarySingleNaN.
From Verif Require Import Base SpecCluster SpecEnsemble Double EnsembleFloat SpecDouble SpecCirclesFloat CirclesFloatProofs
  EnsembleDistFloat SpecDistFloat EnsembleDistFloatProofs EnsembleDistFloatTop.
Import ListNotations.
Open Scope Z_scope.

(** ** C147 *)

(** Along an axis, in pixels: exact, whichever way [xt::linspace] computes. *)
Theorem C147_axis : forall L w asrt roi per var e axis, freachable L asrt roi per var e -> Forall (fun n => 1 <= n <= 2 ^ 53) roi -> 0 <= axis < lenZ roi ->
  exists d, fdistance_axis w asrt e axis = Ok d /\ lenZ d = zprod roi /\
    forall r, pixel roi r -> is_finite (dn d r) = true /\ B2R (dn d r) = IZR (nth (Z.to_nat axis) (offset roi r) 0).
Proof. exact axis_whole. Qed.
Print Assumptions C147_axis.

(** To the centre, in pixels: next to the root, exact if that is a whole number, and in the order of
    the exact distances.  In particular equal distances give equal doubles. *)
Theorem C147_distance : forall L w asrt roi per var e, freachable L asrt roi per var e -> exact_squares L -> accurate (pow_half L) ->
  Forall (fun n => 1 <= n <= 2 ^ 25) roi ->
  exists d, fdistance L w asrt e = Ok d /\ lenZ d = zprod roi /\
    (forall r, pixel roi r -> next_to (sqrt (IZR (pixels2 roi r))) (dn d r)) /\
    (forall r j, pixel roi r -> pixels2 roi r = j * j -> 0 <= j -> B2R (dn d r) = IZR j) /\
    (forall r r', pixel roi r -> pixel roi r' -> ((B2R (dn d r) < B2R (dn d r'))%R <-> pixels2 roi r < pixels2 roi r')).
Proof. exact distance_whole. Qed.
Print Assumptions C147_distance.

(** Along an axis, with the length of a pixel: correctly rounded. *)
Theorem C147_scaled_axis : forall L w asrt roi per var e h axis, freachable L asrt roi per var e -> Forall (fun n => 1 <= n <= 2 ^ 53) roi ->
  lenZ h = lenZ roi -> 0 <= axis < lenZ roi -> is_finite (dn h axis) = true -> (Rabs (B2R (dn h axis)) <= bpow radix2 900)%R ->
  exists d, fdistance_h_axis w asrt e h axis = Ok d /\ lenZ d = zprod roi /\
    forall r, pixel roi r -> nearest_double (IZR (nth (Z.to_nat axis) (offset roi r) 0%Z) * B2R (dn h axis)) (dn d r).
Proof. exact scaled_axis. Qed.
Print Assumptions C147_scaled_axis.

(** To the centre, with the lengths of a pixel: fifteen digits. *)
Theorem C147_scaled : forall L w asrt roi per var e h, freachable L asrt roi per var e -> near_squares L -> accurate (pow_half L) ->
  Forall (fun n => 1 <= n <= 2 ^ 53) roi -> lenZ h = lenZ roi -> Forall pixel_length h ->
  exists d, fdistance_h L w asrt e h = Ok d /\ lenZ d = zprod roi /\
    forall r, pixel roi r -> is_finite (dn d r) = true /\
      (Rabs (B2R (dn d r) - sqrt (radius2 roi h r)) <= bpow radix2 (-49) * sqrt (radius2 roi h r))%R.
Proof. exact scaled_distance. Qed.
Print Assumptions C147_scaled.

Theorem C147_wrong_arguments : forall L w roi per var e h axis, freachable L true roi per var e ->
  (lenZ roi <= axis -> fdistance_axis w true e axis = Throw) /\
  (lenZ h <> lenZ roi -> fdistance_h L w true e h = Throw /\ fdistance_h_axis w true e h axis = Throw).
Proof. exact distances_throw. Qed.
Print Assumptions C147_wrong_arguments.

(** With lengths, equal distances need not be equal doubles: (3, 4) and (0, 5) with pixels of 0.7. *)
Theorem C147_equal_distances_refuted : exists L w asrt roi per var e h r r' d, freachable L asrt roi per var e /\ exact_squares L /\ near_squares L /\ accurate (pow_half L) /\
  Forall pixel_length h /\ pixel roi r /\ pixel roi r' /\ fdistance_h L w asrt e h = Ok d /\ radius2 roi h r = radius2 roi h r' /\ (B2R (dn d r) < B2R (dn d r'))%R.
Proof. exact equal_distances_differ. Qed.
Print Assumptions C147_equal_distances_refuted.

(** A library as assumed, an ensemble, lengths of pixels. *)
Example C147_case : exact_squares rooted /\ near_squares rooted /\ accurate (pow_half rooted) /\ pixel_length pixel7 /\
  (exists e, freachable rooted true [7; 11] true true e) /\ Forall (fun n => 1 <= n <= 2 ^ 25) [7; 11] /\
  pixel [7; 11] 75 /\ pixels2 [7; 11] 75 = 5 * 5 /\ pixels2 [7; 11] 43 = 5 * 5 /\ pixels2 [7; 11] 44 = 26.
Proof.
  split; [exact rooted_exact|]. split; [exact rooted_near|]. split; [exact dsqrt_accurate|]. split; [exact pixel7_length|].
  split; [eexists; eexists; exists []; split; [reflexivity|reflexivity]|]. split; [repeat constructor; lia|].
  split; [unfold pixel; cbn; lia|]. repeat split; reflexivity.
Qed.
