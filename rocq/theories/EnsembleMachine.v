(** * EnsembleMachine: [L] and [W2c] with the paths of the machine

    EnsembleFloat.v adds with [double]s but takes the paths that [L] and [W2c] walk from the
    exact model of [path].  Here they call [ipath] (IntArith.v): [path] with [double]s and
    with [int]s of 32 bits, of which the overflow is undefined. *)

From Coq Require Import ZArith List Bool.
From Verif Require Import Base Array3 Path Double Ensemble EnsembleFloat IntArith.
Import ListNotations.
Open Scope Z_scope.

(** Ensemble_L.hpp:59-95, as [fL_stamp]; lines 59-61 compute the path. *)
Definition mL_stamp (P : pads) (F : arr Z) (size : Z) (mode : path_mode) (e : fens) (s : list Z) : res fens :=
  rows <- ipath (fpath_fuel e) [0; 0; 0] s mode ;;
  a <- foldM (fun first x => fL_walk P F x rows first) (positions P F) (f_first e) ;;
  c <- foldM (fL_norm P size) rows (f_norm e) ;;
  Ok (fset_data e a (f_second e) c).

(** Ensemble_L.hpp:14-96, as [fL]. *)
Definition mL (asrt : bool) (e : fens) (f : img Z) (mode : path_mode) : res fens :=
  _ <- assertb asrt (Nat.eqb (length (i_shape f)) (length (f_roi e))) ;;
  _ <- assertb asrt (funlocked e S_L) ;;
  _ <- froi_ok e ;;
  let P := f_pad e in
  f3 <- to3 f ;;
  F <- pad_mode (f_per e) 0 f3 P ;;
  foldM (mL_stamp P F (lenZ (i_vals f)) mode)
        (stamps (d0 (f_first e)) (d1 (f_first e)) (d2 (f_first e)) P) (fset_stat e S_L).

(** Ensemble_W2c.hpp:66-121, as [fW2c_stamp]. *)
Definition mW2c_stamp (P : pads) (C Ce Fm : arr Z) (F : arr double) (mode : path_mode) (e : fens) (s : list Z) : res fens :=
  rows <- ipath (fpath_fuel e) [0; 0; 0] s mode ;;
  fn <- foldM (fW2c_point P C Ce Fm F rows) (positions P F) (f_first e, f_norm e) ;;
  Ok (fset_data e (fst fn) (f_second e) (snd fn)).

(** Ensemble_W2c.hpp:14-127, as [fW2c]. *)
Definition mW2c (asrt : bool) (e : fens) (clusters centers : img Z) (f : img double) (fmask : img Z)
  (mode : path_mode) : res fens :=
  _ <- assertb asrt (shape_eqb (i_shape f) (i_shape clusters)) ;;
  _ <- assertb asrt (shape_eqb (i_shape f) (i_shape centers)) ;;
  _ <- assertb asrt (shape_eqb (i_shape f) (i_shape fmask)) ;;
  _ <- assertb asrt (Nat.eqb (length (i_shape f)) (length (f_roi e))) ;;
  _ <- assertb asrt (binary fmask) ;;
  _ <- assertb asrt (funlocked e S_W2c) ;;
  _ <- froi_ok e ;;
  let P := f_pad e in
  f3 <- to3 f ;; fm3 <- to3 fmask ;; c3 <- to3 clusters ;; ce3 <- to3 centers ;;
  F <- pad_mode (f_per e) dzero f3 P ;;
  Fm <- pad_mode (f_per e) 0 fm3 P ;;
  C <- pad_mode (f_per e) 0 c3 P ;;
  Ce <- pad_mode (f_per e) 0 ce3 P ;;
  foldM (mW2c_stamp P C Ce Fm F mode)
        (stamps (d0 (f_first e)) (d1 (f_first e)) (d2 (f_first e)) P) (fset_stat e S_W2c).

(** All calls that add a realization, as [fadd]; the others compute no path. *)
Definition madd (L : libm) (asrt : bool) (e : fens) (c : fcall) : res fens :=
  match c with
  | FCallW2c c ce f m mode => mW2c asrt e c ce f (mask1 f m) mode
  | FCallL f mode => mL asrt e f mode
  | _ => fadd L asrt e c
  end.
