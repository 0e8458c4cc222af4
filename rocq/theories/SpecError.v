(** * SpecError: how far the statistics computed with IEEE 754 numbers may be from the exact ones *)

From Coq Require Import ZArith QArith Qcanon Qreals Reals List Bool.
From Flocq Require Import Core BinarySingleNaN.
From Verif Require Import Base Path Ensemble SpecEnsemble Double EnsembleFloat SpecDouble.
Import ListNotations.
Open Scope Z_scope.

(** A bound of which the square, the inverse and sums of many neither overflow nor underflow:
    between 2^-400 and 2^400. *)
Definition moderate (M : R) : Prop := (bpow radix2 (-400) <= M <= bpow radix2 400)%R.

(** All values are at most [M]; any [double]s, not only integers. *)
Definition bounded (M : R) (f : img Qc) : Prop := forall q, In q (i_vals f) -> (Rabs (Q2R (this q)) <= M)%R.

(** Weights: zero, or positive (and not below 2^-400). *)
Definition weights (M : R) (f : img Qc) : Prop :=
  forall q, In q (i_vals f) -> (Q2R (this q) = 0 \/ bpow radix2 (-400) <= Q2R (this q) <= M)%R.

(** A call of the statistic [s] with values of at most [M] and masks of 0 and 1. *)
Definition bounded_call (s : stat) (M : R) (c : call) : Prop :=
  match s, c with
  | S_mean, Mean f => proper f /\ bounded M f
  | S_mean, MeanMasked f m => proper f /\ bounded M f /\ proper m /\ zeros_ones m
  | S_S2, CallS2 f g ms => proper f /\ bounded M f /\ bounded M g /\ forall m n, ms = Some (m, n) -> zeros_ones m /\ zeros_ones n
  | S_W2, CallW2 w f ms => proper w /\ weights M w /\ bounded M f /\ forall m, ms = Some m -> zeros_ones m
  | S_W2c, CallW2c c ce f ms _ => proper f /\ bounded M f /\ forall m, ms = Some m -> zeros_ones m
  | S_heightheight, CallHH f ms => proper f /\ bounded M f /\ forall m, ms = Some m -> zeros_ones m
  | _, _ => False
  end.

(** Bound on the number of terms that one call can add to one number of the ensemble: one per
    pixel; for [W2c] one per pixel, end point and row of a path (as in SpecDouble.v). *)
Definition terms (roi : list Z) (c : call) : Z :=
  match c with
  | Mean f | MeanMasked f _ | CallS2 f _ _ | CallW2 f _ _ | CallHH f _ => zprod (i_shape f)
  | CallW2c _ _ f _ _ => zprod (i_shape f) * rows_bound roi
  | CallC2 f _ _ | CallL f _ => 0
  end.
Definition all_terms (roi : list Z) (cs : list call) : Z := zsum (map (terms roi) cs).

(** The largest term. *)
Definition term_size (s : stat) (M : R) : R :=
  match s with
  | S_S2 => M * M
  | S_heightheight => 4 * (M * M)
  | _ => M
  end%R.

(** The double [x] is [q] up to [b]. *)
Definition close (b : R) (q : Qc) (x : double) : Prop := is_finite x = true /\ (Rabs (B2R x - Q2R (this q)) <= b)%R.

(** The double [x] is the result [v] up to [b]; of a root: the root of a number that is right up
    to [b]. *)
Definition close_value (L : libm) (b : R) (v : value) (x : double) : Prop :=
  match v with
  | Exact q => close b q x
  | Root q => exists y, close b q y /\ x = pow_half L y
  | NaN => False
  end.

(** What is assumed of [pow(x, 2.0)]: one unit in the last place, or underflow. *)
Definition close_squares (L : libm) : Prop :=
  forall z, is_finite z = true -> (Rabs (B2R z) <= bpow radix2 500)%R ->
    is_finite (pow2 L z) = true /\
    (Rabs (B2R (pow2 L z) - B2R z * B2R z) <= bpow radix2 (-52) * (B2R z * B2R z) + bpow radix2 (-1074))%R.

(** [xt::sum] adds in whatever order. *)
Definition any_order (L : libm) : Prop := forall l, adds l (total L l).

(** Element [r] of the result. *)
Definition vn (l : list value) (r : Z) : value := nth (Z.to_nat r) l NaN.

(** 2^-52, the distance from one to the next [double]. *)
Definition unit : R := bpow radix2 (-52).

(** The statistics that count: the norm is exact, and the sum of [n] terms and the result
    (their average) are right up to about [n] roundings of the largest term. *)
Definition counted_close (s : stat) (M : R) (L : libm) (N : Z) (e : ens) (x : fens) : Prop :=
  lenZ (fnorm x) = lenZ (norm e) /\ lenZ (fdata_first x) = lenZ (norm e) /\ lenZ (fresult L x) = lenZ (norm e) /\
  forall r, 0 <= r < lenZ (norm e) -> exists n, 0 <= n <= N /\
    qn (norm e) r = zq n /\ is_number (zq n) (dn (fnorm x) r) /\
    close (IZR n * (IZR n + 2) * unit * term_size s M)%R (qn (data_first e) r) (dn (fdata_first x) r) /\
    close_value L ((IZR n + 3) * unit * term_size s M)%R (vn (result e) r) (dn (fresult L x) r).

(** [W2]: the weight and the weighted sum are right up to about [N] roundings of themselves,
    and the weighted average up to about [4 N] roundings of the largest value. *)
Definition weighted_close (M : R) (L : libm) (N : Z) (e : ens) (x : fens) : Prop :=
  lenZ (fnorm x) = lenZ (norm e) /\ lenZ (fdata_first x) = lenZ (norm e) /\ lenZ (fresult L x) = lenZ (norm e) /\
  forall r, 0 <= r < lenZ (norm e) ->
    (0 <= Q2R (this (qn (norm e) r)))%R /\
    close (IZR N * unit * Q2R (this (qn (norm e) r)))%R (qn (norm e) r) (dn (fnorm x) r) /\
    close (IZR N * unit * (M * Q2R (this (qn (norm e) r))))%R (qn (data_first e) r) (dn (fdata_first x) r) /\
    close_value L ((4 * IZR N + 2) * unit * M)%R (vn (result e) r) (dn (fresult L x) r).
