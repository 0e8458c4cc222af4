(** * SpecAxis: straight stretches along an axis *)

From Coq Require Import ZArith QArith Qcanon List Bool.
From Verif Require Import Base SpecCluster Ensemble SpecEnsemble.
Import ListNotations.
Open Scope Z_scope.

(** The offset in [n] dimensions of [t] pixels along axis [a]. *)
Definition along (n a : nat) (t : Z) : list Z := map (fun i => if Nat.eqb i a then t else 0) (seq 0 n).

(** All pixels from [p] to [p + t] along axis [a], both included, are in the phase (not zero).
    A periodic image is repeated, beyond any other image there is nothing. *)
Definition straight (per : bool) (shape f : list Z) (a : nat) (t p : Z) : bool :=
  forallb (fun i => in_phase per shape f p (along (length shape) a i)) (zrange (Z.min 0 t) (Z.max 0 t + 1)).

(** The fraction of pixels from which the stretch of [t] along axis [a] is in the phase. *)
Definition straight_fraction (per : bool) (shape f : list Z) (a : nat) (t : Z) : Qc :=
  (zq (lenZ (filter (straight per shape f a t) (pixels shape))) / zq (zprod shape))%Qc.
