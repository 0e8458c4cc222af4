(** * SpecSpectrum: samples that are the mirror image, a multiple or the transpose of others *)

From Coq Require Import ZArith List Reals.
From Verif Require Import Base.
Open Scope Z_scope.

(** [u'] is [u] read backwards; in two dimensions, along both axes or along the second only. *)
Definition backwards (n : Z) (u u' : Z -> R) : Prop := forall j, 0 <= j < n -> u' j = u (n - 1 - j).
Definition backwards2 (n m : Z) (u u' : Z -> Z -> R) : Prop :=
  forall a b, 0 <= a < n -> 0 <= b < m -> u' a b = u (n - 1 - a) (m - 1 - b).
Definition flipped_columns (n m : Z) (u u' : Z -> Z -> R) : Prop :=
  forall a b, 0 <= a < n -> 0 <= b < m -> u' a b = u a (m - 1 - b).

(** [u'] is [c] times [u] plus [d]. *)
Definition affine (n : Z) (c d : R) (u u' : Z -> R) : Prop := forall j, 0 <= j < n -> u' j = (c * u j + d)%R.
Definition affine2 (n m : Z) (c d : R) (u u' : Z -> Z -> R) : Prop :=
  forall a b, 0 <= a < n -> 0 <= b < m -> u' a b = (c * u a b + d)%R.

(** [u'] (of [m] by [n] points) is [u] (of [n] by [m] points) with its axes interchanged. *)
Definition transposed (n m : Z) (u u' : Z -> Z -> R) : Prop :=
  forall a b, 0 <= a < n -> 0 <= b < m -> u' b a = u a b.

(** The indices of two frequencies that are both not negative, or both negative. *)
Definition same_sign (n m i j : Z) : Prop := 2 * i < n /\ 2 * j < m \/ n < 2 * i /\ m < 2 * j.
