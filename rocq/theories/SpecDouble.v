(** * SpecDouble: what the statistics computed with IEEE 754 numbers are compared with

    The exact statistics are those of Ensemble.v (rational numbers); SpecEnsemble.v says what
    they mean. *)

From Coq Require Import ZArith QArith Qcanon Qreals Reals List Bool Permutation.
From Flocq Require Import Core BinarySingleNaN.
From Verif Require Import Base Path Ensemble Double EnsembleFloat.
Import ListNotations.
Open Scope Z_scope.

(** The double [x] is the number [q]. *)
Definition is_number (q : Qc) (x : double) : Prop := is_finite x = true /\ B2R x = Q2R (this q).

(** The double [x] is [r], correctly rounded (to the nearest double, ties to even). *)
Definition nearest_double (r : R) (x : double) : Prop :=
  is_finite x = true /\ B2R x = round radix2 (FLT_exp (-1074) 53) ZnearestE r.

(** The same image, the same calls. *)
Definition same_image (f : img Qc) (x : img double) : Prop :=
  i_shape f = i_shape x /\ Forall2 is_number (i_vals f) (i_vals x).

Definition same_call (c : call) (d : fcall) : Prop :=
  match c, d with
  | Mean f, FMean x => same_image f x
  | MeanMasked f m, FMeanMasked x n => same_image f x /\ m = n
  | CallS2 f g m, FCallS2 x y n => same_image f x /\ same_image g y /\ m = n
  | CallC2 f g m, FCallC2 x y n => f = x /\ g = y /\ m = n
  | CallW2 w f m, FCallW2 v x n => same_image w v /\ same_image f x /\ m = n
  | CallW2c c ce f m mode, FCallW2c c' ce' x n mode' => c = c' /\ ce = ce' /\ same_image f x /\ m = n /\ mode = mode'
  | CallHH f m, FCallHH x n => same_image f x /\ m = n
  | CallL f mode, FCallL x mode' => f = x /\ mode = mode'
  | _, _ => False
  end.

(** An image has as many values as its shape says. *)
Definition proper {A} (f : img A) : Prop :=
  Forall (fun n => 0 <= n) (i_shape f) /\ lenZ (i_vals f) = zprod (i_shape f).
(** A mask holds 0 and 1. *)
Definition zeros_ones (m : img Z) : Prop := forall x, In x (i_vals m) -> x = 0 \/ x = 1.
(** All values are integers of at most [M]. *)
Definition integral (M : Z) (f : img Qc) : Prop :=
  forall q, In q (i_vals f) -> exists z, q = zq z /\ Z.abs z <= M.

(** A call with integers of at most [M] and masks of 0 and 1. *)
Definition integral_call (M : Z) (c : call) : Prop :=
  match c with
  | Mean f => proper f /\ integral M f
  | MeanMasked f m => proper f /\ integral M f /\ proper m /\ zeros_ones m
  | CallS2 f g ms => proper f /\ integral M f /\ integral M g /\ forall m n, ms = Some (m, n) -> zeros_ones m /\ zeros_ones n
  | CallC2 f g ms => proper f /\ forall m n, ms = Some (m, n) -> zeros_ones m /\ zeros_ones n
  | CallW2 f g ms => proper f /\ integral M f /\ integral M g /\ forall m, ms = Some m -> zeros_ones m
  | CallW2c c ce f ms _ => proper f /\ integral M f /\ forall m, ms = Some m -> zeros_ones m
  | CallHH f ms => proper f /\ integral M f /\ forall m, ms = Some m -> zeros_ones m
  | CallL f _ => proper f
  end.

(** Bound on what one call can add to one number of the ensemble: the number of pixels times
    the largest term.  For [L] and [W2c]: every pixel, every end point (at most one per element
    of the roi), every row of a path (at most three per unit of length). *)
Definition rows_bound (roi : list Z) : Z := zprod roi * (3 * (zsum roi + 4) + 1).

Definition largest (roi : list Z) (var : bool) (M : Z) (c : call) : Z :=
  match c with
  | Mean f | MeanMasked f _ | CallS2 f _ _ | CallW2 f _ _ => zprod (i_shape f) * (M * M)
  | CallC2 f _ _ => zprod (i_shape f)
  | CallHH f _ => zprod (i_shape f) * (if var then 16 * (M * M * (M * M)) else 4 * (M * M))
  | CallL f _ => zprod (i_shape f) * rows_bound roi
  | CallW2c _ _ f _ _ => zprod (i_shape f) * rows_bound roi * M
  end.

(** All calls together. *)
Definition all_calls (roi : list Z) (var : bool) (M : Z) (cs : list call) : Z :=
  zsum (map (largest roi var M) cs).

(** [x] is the sum of the numbers in some order, bracketed in some way, every addition
    rounded. *)
Inductive adds : list double -> double -> Prop :=
| adds_none : adds [] dzero
| adds_one : forall x, adds [x] x
| adds_both : forall l1 l2 l x y, adds l1 x -> adds l2 y -> Permutation l (l1 ++ l2) -> adds l (dplus x y).

(** What is assumed of the libraries: powers of integers are exact as long as they are at most
    2^53, and [xt::sum] adds in whatever order. *)
Definition library (L : libm) : Prop :=
  (forall x z, is_finite x = true -> B2R x = IZR z -> z * z <= 2 ^ 53 ->
     is_finite (pow2 L x) = true /\ B2R (pow2 L x) = IZR (z * z)) /\
  (forall x z, is_finite x = true -> B2R x = IZR z -> z * z * (z * z) <= 2 ^ 53 ->
     is_finite (pow4 L x) = true /\ B2R (pow4 L x) = IZR (z * z * (z * z))) /\
  (forall l, adds l (total L l)).

(** A sequence of calls. *)
Definition frun (L : libm) (asrt : bool) (cs : list fcall) (e : fens) : res fens := foldM (fadd L asrt) cs e.

(** The same way of ending: both return (related results), or both fail alike. *)
Definition alike {A B} (R : A -> B -> Prop) (x : res A) (y : res B) : Prop :=
  match x, y with
  | Ok a, Ok b => R a b
  | Throw, Throw | UB, UB | NoFuel, NoFuel => True
  | _, _ => False
  end.

(** The data of the ensemble is exact, and the result is the exact one, correctly rounded
    (heightheight: the exact one of which the root is taken). *)
Definition exact_data (e : ens) (x : fens) : Prop :=
  Forall2 is_number (data_first e) (fdata_first x) /\
  Forall2 is_number (data_second e) (fdata_second x) /\
  Forall2 is_number (norm e) (fnorm x).

Definition rounded_value (L : libm) (v : value) (x : double) : Prop :=
  match v with
  | Exact q => nearest_double (Q2R (this q)) x
  | Root q => exists y, nearest_double (Q2R (this q)) y /\ x = pow_half L y
  | NaN => exists y, is_finite y = true /\ (B2R y < 0)%R /\ x = pow_half L y
  end.

(** The same number, or both a zero (of any sign), or both NaN. *)
Definition same_double (x y : double) : Prop :=
  x = y \/ exists s t, x = B754_zero s /\ y = B754_zero t.

(** The same data and result (up to the sign of a zero). *)
Definition same_fdata (L : libm) (x y : fens) : Prop :=
  Forall2 same_double (fdata_first x) (fdata_first y) /\
  Forall2 same_double (fdata_second x) (fdata_second y) /\
  Forall2 same_double (fnorm x) (fnorm y) /\
  Forall2 same_double (fresult L x) (fresult L y).

(** [pow(0, 0.5)] is a zero. *)
Definition root_of_zero (L : libm) : Prop := forall s, exists t, pow_half L (B754_zero s) = B754_zero t.

(** Value of a pixel. *)
Definition dn (l : list double) (p : Z) : double := nth (Z.to_nat p) l dzero.

(** An ensemble to which one realization is added. *)
Definition ffresh (L : libm) (asrt : bool) (roi : list Z) (per var : bool) (c : fcall) : res fens :=
  x <- fensemble asrt roi per var ;; fadd L asrt x c.

(** Is any value of the result a NaN? *)
Definition some_nan (l : list double) : bool := existsb is_nan l.

(** The products of the values of the unmasked pixels of [f] with those of the masked pixels of
    [g] are finite. *)
Definition harmless (shape : list Z) (f : img double) (fm : img Z) (g : img double) (gm : img Z) : Prop :=
  forall p q, 0 <= p < zprod shape -> 0 <= q < zprod shape -> zn (i_vals fm) p = 0 -> zn (i_vals gm) q = 1 ->
    is_finite (dtimes (dn (i_vals f) p) (dn (i_vals g) q)) = true.

(** The powers of the differences of masked values [g] and unmasked values [f] are finite. *)
Definition harmless_differences (L : libm) (var : bool) (shape : list Z) (f g : img double) (m : img Z) : Prop :=
  forall p q, 0 <= p < zprod shape -> 0 <= q < zprod shape -> zn (i_vals m) p = 0 -> zn (i_vals m) q = 1 ->
    is_finite (pow2 L (dminus (dn (i_vals g) q) (dn (i_vals f) p))) = true /\
    (var = true -> is_finite (pow4 L (dminus (dn (i_vals g) q) (dn (i_vals f) p))) = true).

(** [pow(x, 2.0)] is correctly rounded (for [x] up to 2^53). *)
Definition squares (L : libm) : Prop :=
  forall x, is_finite x = true -> (Rabs (B2R x) <= IZR (2 ^ 53))%R -> nearest_double (B2R x * B2R x)%R (pow2 L x).
