(** * SpecStructureAll: products of two Fourier components in two dimensions *)

From Coq Require Import ZArith List Reals.
From Verif Require Import Base SpecStructure.
Open Scope Z_scope.

(** The real and (minus) the imaginary part of the Fourier component with [k] waves along the [n]
    rows and [l] along the [m] columns. *)
Definition cosines (n m : Z) (u : Z -> Z -> R) (k l : Z) : R :=
  sum_below n (fun a => sum_below m (fun b => u a b * cos (2 * PI * (IZR a * IZR k / IZR n + IZR b * IZR l / IZR m))))%R.
Definition sines (n m : Z) (u : Z -> Z -> R) (k l : Z) : R :=
  sum_below n (fun a => sum_below m (fun b => u a b * sin (2 * PI * (IZR a * IZR k / IZR n + IZR b * IZR l / IZR m))))%R.

(** The real part of the product of the components of [k], [l] and of [k'], [l']. *)
Definition product2 (n m : Z) (u : Z -> Z -> R) (k l k' l' : Z) : R :=
  (cosines n m u k l * cosines n m u k' l' - sines n m u k l * sines n m u k' l')%R.
