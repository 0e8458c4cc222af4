(** * SpecCenterFloat: what centers computed with IEEE 754 numbers are compared with, and what is
    assumed of the libraries

    [nearest_double] and [adds] are those of SpecDouble.v; [circular_mean] and so on of
    SpecCenter.v. *)

From Coq Require Import ZArith Reals List.
From Flocq Require Import Core BinarySingleNaN.
From Verif Require Import Base Cluster SpecCluster Center SpecCenter Double CirclesFloat CenterFloat SpecDouble.
Import ListNotations.
Open Scope R_scope.

(** Sums are added in some order. *)
Definition sums (T : trig) : Prop := forall l, adds l (t_sum T l).

(** [a] is the angle of the point [(x, y)], which is not the origin. *)
Definition angle (y x a : R) : Prop :=
  - PI <= a <= PI /\ exists rho, 0 < rho /\ x = rho * cos a /\ y = rho * sin a.

(** The double [x] is a number that is [r] up to [b]. *)
Definition within (b r : R) (x : double) : Prop := is_finite x = true /\ Rabs (B2R x - r) <= b.

(** [cos] and [sin] of moderate angles are right up to 2^-52 and at most one, and [atan2] is
    right up to 2^-51 and at most [M_PI]. *)
Definition precise (T : trig) : Prop :=
  (forall x, is_finite x = true -> Rabs (B2R x) <= bpow radix2 30 ->
     (within (bpow radix2 (-52)) (cos (B2R x)) (t_cos T x) /\ Rabs (B2R (t_cos T x)) <= 1) /\
     (within (bpow radix2 (-52)) (sin (B2R x)) (t_sin T x) /\ Rabs (B2R (t_sin T x)) <= 1)) /\
  (forall y x, is_finite y = true -> is_finite x = true ->
     within (B2R lit_pi) 0 (t_atan2 T y x) /\
     (~ (B2R x = 0 /\ B2R y = 0) -> exists a, angle (B2R y) (B2R x) a /\ within (bpow radix2 (-51)) a (t_atan2 T y x))).

(** All functions are correctly rounded. *)
Definition correctly_rounded (T : trig) : Prop :=
  (forall x, is_finite x = true -> Rabs (B2R x) <= bpow radix2 30 ->
     nearest_double (cos (B2R x)) (t_cos T x) /\ nearest_double (sin (B2R x)) (t_sin T x)) /\
  (forall y x a, is_finite y = true -> is_finite x = true -> B2R y <> 0 -> angle (B2R y) (B2R x) a ->
     nearest_double a (t_atan2 T y x)).

(** Positions (and weights) as real numbers. *)
Definition real_position (p : list double) : list R := map (fun x : double => B2R x) p.
Definition real_mass (m : list double * double) : mass := (real_position (fst m), B2R (snd m)).

(** One number per axis, and all of them finite. *)
Definition finite_position (shape p : list double) : Prop :=
  length p = length shape /\ Forall (fun x => is_finite x = true) p.

(** Length of axis [k] of the box: a number between 2^-100 and 2^100. *)
Definition proper_side (shape : list double) (k : nat) (len : R) : Prop :=
  exists x, nth_error shape k = Some x /\ within 0 len x /\ bpow radix2 (-100) <= len <= bpow radix2 100.

(** How much the points on the circle agree on a direction: one if all are in the same point,
    zero if they are balanced. *)
Definition concentration (len : R) (k : nat) (l : list mass) : R :=
  sqrt (sum_cos len k l * sum_cos len k l + sum_sin len k l * sum_sin len k l) / total snd l.

(** The result has the number [c] at axis [k]. *)
Definition at_faxis (r : list double) (k : nat) (c : double) : Prop :=
  nth_error r k = Some c /\ is_finite c = true.

(** The double [c] is, up to whole boxes, the circular mean up to [b]. *)
Definition near_circular_mean (b len : R) (k : nat) (l : list mass) (c : double) : Prop :=
  forall c0, circular_mean len k l c0 -> exists m : Z, Rabs (B2R c - (c0 + IZR m * len)) <= b.

(** Weights: zero, or between 2^-400 and 2^400. *)
Definition weight (w : double) : Prop :=
  is_finite w = true /\ (B2R w = 0 \/ bpow radix2 (-400) <= B2R w <= bpow radix2 400).

(** The pixels of a label, as [double]s. *)
Definition pixels_of (shape pixels : list Z) : list (list double) :=
  map (fun p => map dz (coords shape p)) pixels.
