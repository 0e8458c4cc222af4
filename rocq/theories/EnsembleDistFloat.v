(** * EnsembleDistFloat: the distances of Ensemble.hpp:71-131 once more, now with [double] as
    IEEE 754 numbers

    Ensemble.v models the same code with exact rationals. *)

From Coq Require Import ZArith List Bool.
From Verif Require Import Base Array3 Double Ensemble EnsembleFloat.
Import ListNotations.
Open Scope Z_scope.

(** [xt::linspace] is [start + step * k], or adds [step] over and over: depends on its version. *)
Inductive spacing := Multiplied | Accumulated.

(** [xt::linspace<double>(-1.0 * p, q, n)], element [k] (Ensemble.hpp:78-81):
    [step = (stop - start) / fmax(1.0, n - 1)]. *)
Definition flinspace (w : spacing) (p q n k : Z) : double :=
  let start := dtimes (dz (-1)) (dz p) in
  let step := ddiv (dminus (dz q) start) (dz (Z.max 1 (n - 1))) in
  match w with
  | Multiplied => dplus start (dtimes step (dz k))
  | Accumulated => Nat.iter (Z.to_nat k) (fun x => dplus x step) start
  end.

(** [distance(axis)] (Ensemble.hpp:71-101). *)
Definition fdistance_axis (w : spacing) (asrt : bool) (e : fens) (axis : Z) : res (list double) :=
  _ <- assertb asrt (axis <? lenZ (f_roi e)) ;;
  let a := atleast_3d_axis (lenZ (f_roi e)) axis in
  let '(P0, P1, P2) := f_pad e in
  let '(n0, n1, n2) := (d0 (f_first e), d1 (f_first e), d2 (f_first e)) in
  match a with
  | 0 => Ok (dat (tab n0 n1 n2 (fun h i j => flinspace w (fst P0) (snd P0) n0 h)))
  | 1 => Ok (dat (tab n0 n1 n2 (fun h i j => flinspace w (fst P1) (snd P1) n1 i)))
  | 2 => Ok (dat (tab n0 n1 n2 (fun h i j => flinspace w (fst P2) (snd P2) n2 j)))
  | _ => UB
  end.

(** The loops of Ensemble.hpp:107-109 ([scale] does nothing) and 120-122 ([scale] multiplies by
    [h[i]]): [ret += xt::pow(..., 2.0)]. *)
Definition fsum_squares (L : libm) (w : spacing) (asrt : bool) (e : fens) (scale : Z -> double -> double) : res (list double) :=
  foldM (fun acc i =>
           d <- fdistance_axis w asrt e i ;;
           Ok (map (fun x => dplus (fst x) (pow2 L (scale i (snd x)))) (combine acc d)))
        (zrange 0 (lenZ (f_roi e))) (repeat dzero (Z.to_nat (zprod (f_roi e)))).

(** [distance()] (Ensemble.hpp:103-112). *)
Definition fdistance (L : libm) (w : spacing) (asrt : bool) (e : fens) : res (list double) :=
  s <- fsum_squares L w asrt e (fun _ x => x) ;; Ok (map (pow_half L) s).

(** [distance(h)] (Ensemble.hpp:114-125). *)
Definition fdistance_h (L : libm) (w : spacing) (asrt : bool) (e : fens) (h : list double) : res (list double) :=
  _ <- assertb asrt (lenZ (f_roi e) =? lenZ h) ;;
  _ <- mapM (vget h) (zrange 0 (lenZ (f_roi e))) ;;
  s <- fsum_squares L w asrt e (fun i x => dtimes x (nth (Z.to_nat i) h dzero)) ;; Ok (map (pow_half L) s).

(** [distance(h, axis)] (Ensemble.hpp:127-131). *)
Definition fdistance_h_axis (w : spacing) (asrt : bool) (e : fens) (h : list double) (axis : Z) : res (list double) :=
  _ <- assertb asrt (lenZ (f_roi e) =? lenZ h) ;;
  d <- fdistance_axis w asrt e axis ;;
  s <- vget h axis ;;
  Ok (map (fun x => dtimes x s) d).
