(** * SpecGeom: what Python calls with positions ask for *)

From Coq Require Import ZArith QArith Qcanon Qreals Reals List Bool.
From Verif Require Import Base Ensemble EnsemblePy.
Import ListNotations.
Open Scope Z_scope.

(** The array is the list [l] of integers, all at least [lo] and below [hi], whatever its dtype. *)
Definition vector (lo hi : Z) (a : array) (l : list Z) : Prop :=
  (exists n, a_shape a = [n]) /\ a_vals a = map zq l /\ Forall (fun z => lo <= z < hi) l.

(** The array is a list, or a table with the given rows, of numbers. *)
Definition holds_list (a : array) (l : list R) : Prop :=
  (exists n, a_shape a = [n]) /\ map (fun q => Q2R (this q)) (a_vals a) = l.
Definition holds_rows (a : array) (l : list (list R)) : Prop :=
  exists n m, a_shape a = [n; m] /\ 0 <= m /\ lenZ l = n /\ Forall (fun x => lenZ x = m) l /\
    map (fun q => Q2R (this q)) (a_vals a) = concat l.
