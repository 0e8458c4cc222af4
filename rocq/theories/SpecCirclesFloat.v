(** * SpecCirclesFloat: what is assumed of the mathematical library *)

From Coq Require Import ZArith Reals List.
From Flocq Require Import Core BinarySingleNaN.
From Verif Require Import Base Circles Double CirclesFloat.
Open Scope R_scope.

(** [x] is the double next to the real number [r], on either side; it is [r] if that is a double. *)
Definition next_to (r : R) (x : double) : Prop :=
  is_finite x = true /\
  ((B2R x <= r /\ forall y : double, is_finite y = true -> B2R y <= r -> B2R y <= B2R x) \/
   (r <= B2R x /\ forall y : double, is_finite y = true -> r <= B2R y -> B2R x <= B2R y)).

(** A square root with an error below one unit in the last place. *)
Definition accurate (root : double -> double) : Prop :=
  forall x, is_finite x = true -> 0 <= B2R x -> next_to (sqrt (B2R x)) (root x).

(** The square root of IEEE 754. *)
Definition dsqrt (x : double) : double := @Bsqrt 53 1024 precision exponent mode_NE x.

(** What the generator promises of a draw, as in SpecCircles.v. *)
Definition valid_fdraw (n m : Z) (w : fdraw) : Prop :=
  (0 <= fw_row w < 2 * (n / (2 * (n / 20))))%Z /\ (0 <= fw_col w < 2 * (m / (2 * (m / 20))))%Z /\
  is_finite (fw_rad w) = true /\ 0 <= B2R (fw_rad w) < 1.

(** The numbers of the generator are multiples of 2^-32. *)
Definition of_32_bits (w : fdraw) : Prop := exists k, B2R (fw_rad w) = IZR k / IZR (2 ^ 32).

(** The same draw for Circles.v. *)
Definition exact_draw (w : fdraw) : draw := mkdraw (fw_row w) (fw_col w) (B2R (fw_rad w)).

(** The radius asked for, before truncation: the circles cover 30% of the image. *)
Definition ideal_radius (n m : Z) : R := sqrt (3 / 10 * IZR (n * m) / (PI * IZR (n / 20 * (m / 20)))).

(** [r] is a whole number, or almost one. *)
Definition almost_integer (r : R) : Prop := exists j, Rabs (IZR j - r) <= r * / IZR (2 ^ 48).
