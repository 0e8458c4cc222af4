(** * BindingsGeom: model of the Python bindings of [path], [dummy_circles] and the centers
    (python/main.cpp:87-113, 192-223)

    Arrays and casts as in BindingsPy.v.  [None] is an argument that is left out; for names of
    arguments see BindingsCall.v.  To [double] all arrays are converted without loss (rounding of
    64-bit integers is not modelled, as in EnsemblePy.v).  [shape] of [dummy_circles] is a list
    of Python integers; [dummy_circles] with a seed is not modelled. *)

From Coq Require Import ZArith QArith Qcanon Qreals Reals List Bool.
From Verif Require Import Base Path Circles Center Ensemble EnsemblePy BindingsPy.
Import ListNotations.
Open Scope Z_scope.

(** [path] (main.cpp:87-92); [pytensor<int, 1>] twice. *)
Definition py_path (fuel : nat) (xa xb : array) (mode : option path_mode) : res (list (list Z)) :=
  a <- with_rank 1 xa (to_int xa) ;; b <- with_rank 1 xb (to_int xb) ;;
  path fuel (i_vals a) (i_vals b) (match mode with Some m => m | None => Bresenham end).

(** [dummy_circles] (main.cpp:101-113). *)
Definition py_dummy_circles (asrt : bool) (shape : list Z) (row col r : array) (periodic : option bool) : res (list Z) :=
  x <- with_rank 1 row (to_int row) ;; y <- with_rank 1 col (to_int col) ;; s <- with_rank 1 r (to_int r) ;;
  dummy_circles asrt shape (i_vals x) (i_vals y) (i_vals s) (match periodic with Some b => b | None => true end).

(** Arrays of [double]: the values; of rank two, the rows. *)
Definition reals (a : array) : list R := map (fun q => Q2R (this q)) (a_vals a).
Definition matrix_rows (a : array) : list (list R) :=
  let m := zn (a_shape a) 1 in
  map (fun i => firstn (Z.to_nat m) (skipn (Z.to_nat (i * m)) (reals a))) (zrange 0 (zn (a_shape a) 0)).

(** [center] (main.cpp:192-197), [center_of_mass] (main.cpp:199-205). *)
Definition py_center (shape positions : array) (periodic : option bool) : res (list num) :=
  s <- with_rank 1 shape (Ok (reals shape)) ;; p <- with_rank 2 positions (Ok (matrix_rows positions)) ;;
  center s p (match periodic with Some b => b | None => true end).
Definition py_center_of_mass (shape positions weights : array) (periodic : option bool) : res (list num) :=
  s <- with_rank 1 shape (Ok (reals shape)) ;; p <- with_rank 2 positions (Ok (matrix_rows positions)) ;;
  w <- with_rank 1 weights (Ok (reals weights)) ;;
  center_of_mass s p w (match periodic with Some b => b | None => true end).

(** [labels_centers] (main.cpp:207-212), [labels_centers_of_mass] (main.cpp:214-223). *)
Definition py_labels_centers (asrt : bool) (labels names : array) (periodic : option bool) : res (list (list num)) :=
  l <- to_long labels ;; n <- with_rank 1 names (to_long names) ;;
  labels_centers asrt (i_shape l) (i_vals l) (i_vals n) (match periodic with Some b => b | None => true end).
Definition py_labels_centers_of_mass (asrt : bool) (labels weights names : array) (periodic : option bool) : res (list (list num)) :=
  l <- to_long labels ;; n <- with_rank 1 names (to_long names) ;;
  labels_centers_of_mass asrt (i_shape l) (i_vals l) (a_shape weights) (reals weights) (i_vals n)
    (match periodic with Some b => b | None => true end).
