(** * SpecDistFloat: distances of the elements of the region of interest *)

From Coq Require Import ZArith Reals List Bool.
From Flocq Require Import Core BinarySingleNaN.
From Verif Require Import Base Path SpecCluster SpecPath SpecDilate Ensemble SpecEnsemble Double EnsembleFloat SpecDouble.
Import ListNotations.
Open Scope Z_scope.

(** An ensemble after any calls, of any images. *)
Definition freachable (L : libm) (asrt : bool) (roi : list Z) (per var : bool) (e : fens) : Prop :=
  exists e0 cs, fensemble asrt roi per var = Ok e0 /\ frun L asrt cs e0 = Ok e.

(** The square of the distance of element [r] to the centre, in pixels. *)
Definition pixels2 (roi : list Z) (r : Z) : Z := zsum (map (fun o => o * o) (offset roi r)).

(** The same if a pixel along axis [a] has length [h a]. *)
Definition radius2 (roi : list Z) (h : list double) (r : Z) : R :=
  fold_right Rplus 0%R (map (fun oh => (IZR (fst oh) * B2R (snd oh)) ^ 2)%R (combine (offset roi r) h)).

(** [pow(x, 2.0)] of an integer is exact up to 2^53. *)
Definition exact_squares (L : libm) : Prop := forall x z, is_finite x = true -> B2R x = IZR z -> z * z <= 2 ^ 53 ->
  is_finite (pow2 L x) = true /\ B2R (pow2 L x) = IZR (z * z).

(** Lengths of pixels: zero, or neither so large nor so small that squares are out of range. *)
Definition pixel_length (x : double) : Prop :=
  is_finite x = true /\ (B2R x = 0 \/ bpow radix2 (-400) <= Rabs (B2R x) <= bpow radix2 400)%R.

(** [pow(x, 2.0)] is off by at most one unit in the last place, as long as nothing is out of
    range. *)
Definition near_squares (L : libm) : Prop := forall x, is_finite x = true ->
  (B2R x = 0 \/ bpow radix2 (-410) <= Rabs (B2R x) <= bpow radix2 480)%R ->
  is_finite (pow2 L x) = true /\ (Rabs (B2R (pow2 L x) - B2R x ^ 2) <= bpow radix2 (-52) * B2R x ^ 2)%R.
