(** * Double: the type [double] of C++ as IEEE 754 binary64, rounding to nearest even (Flocq)

    NaNs are not distinguished from each other. *)

From Coq Require Import ZArith List Bool.
From Flocq Require Import Core BinarySingleNaN.
Open Scope Z_scope.

Definition double : Type := binary_float 53 1024.

Definition precision : Prec_gt_0 53 := eq_refl.
Definition exponent : Prec_lt_emax 53 1024 := eq_refl.

Definition dplus : double -> double -> double := @Bplus 53 1024 precision exponent mode_NE.
Definition dminus : double -> double -> double := @Bminus 53 1024 precision exponent mode_NE.
Definition dtimes : double -> double -> double := @Bmult 53 1024 precision exponent mode_NE.
Definition ddiv : double -> double -> double := @Bdiv 53 1024 precision exponent mode_NE.

(** [static_cast<double>] of an integer. *)
Definition dz (z : Z) : double := binary_normalize 53 1024 precision exponent mode_NE z 0 false.

Definition dzero : double := B754_zero false.
Definition done : double := dz 1.

(** [x == y], [x <= y]; both are false of a NaN. *)
Definition deq (x y : double) : bool := Beqb x y.
Definition dle (x y : double) : bool := Bleb x y.
