(** * CirclesFloat: [dummy_circles] (GooseEYE.h:120-208) once more, now with [double] as
    IEEE 754 numbers

    Circles.v models the same code with exact numbers.  Here every operation rounds.
    [root] is [pow(x, 0.5)] of the mathematical library, about which only a contract is assumed
    (SpecCirclesFloat.v).  Names carry an [f]. *)

From Coq Require Import ZArith List Bool.
From Flocq Require Import Core BinarySingleNaN.
From Verif Require Import Base Path Circles Double PathFloat.
Import ListNotations.
Open Scope Z_scope.

(** [(int)(ceil(x))] (values outside the range of [int] do not occur here). *)
Definition dceil (x : double) : Z :=
  match x with
  | B754_finite s m e _ =>
      if 0 <=? e then (if s then - (Zpos m * 2 ^ e) else Zpos m * 2 ^ e)
      else if s then - (Zpos m / 2 ^ (- e)) else - ((- Zpos m) / 2 ^ (- e))
  | _ => 0
  end.

(** [pow(di, 2) + pow(dj, 2)] (GooseEYE.h:137, 152); [pow(i, 2)] is a product here: it is exact
    for all integers below 2^26. *)
Definition fsquares (a b : Z) : double := dplus (dtimes (dz a) (dz a)) (dtimes (dz b) (dz b)).

(** GooseEYE.h:135-138, 149-153. *)
Definition fdisc (root : double -> double) (r : Z) : list (Z * Z) :=
  filter (fun d => dceil (root (fsquares (fst d) (snd d))) <? r)
         (list_prod (zrange (- r) (r + 1)) (zrange (- r) (r + 1))).

(** One circle (GooseEYE.h:135-142, 149-158). *)
Definition fpaint_circle (root : double -> double) (per : bool) (n m : Z) (row col r : list Z) (out : list Z) (i : Z)
  : res (list Z) :=
  x <- tget row i ;;
  y <- tget col i ;;
  rad <- tget r i ;;
  foldM (fun out d => (if per then paint_periodic else paint_inside) n m out (x + fst d) (y + snd d))
        (fdisc root rad) out.

(** GooseEYE.h:120-162. *)
Definition fdummy_circles (root : double -> double) (asrt : bool) (shape row col r : list Z) (per : bool) : res (list Z) :=
  _ <- assertb asrt (lenZ row =? lenZ col) ;;
  _ <- assertb asrt (lenZ row =? lenZ r) ;;
  _ <- assertb asrt (lenZ shape =? 2) ;;
  match shape with
  | [n; m] =>
      foldM (fpaint_circle root per n m row col r) (zrange 0 (lenZ row)) (repeat 0 (Z.to_nat (n * m)))
  | _ => UB
  end.

(** ** Random circles (GooseEYE.h:171-208) *)

(** The literals [0.05] and [0.3], and [M_PI]. *)
Definition lit_twentieth : double := ddiv done (dz 20).
Definition lit_threetenths : double := ddiv (dz 3) (dz 10).
Definition lit_pi : double := binary_normalize 53 1024 precision exponent mode_NE 7074237752028440 (-51) false.

(** [(size_t)(0.05 * (double)n)] (GooseEYE.h:178-179). *)
Definition ftwentieth (n : Z) : Z := dint (dtimes lit_twentieth (dz n)).

(** The default radius (GooseEYE.h:180); [shape[0] * shape[1]] does not wrap here. *)
Definition fdefault_radius (root : double -> double) (n m : Z) : Z :=
  dint (root (ddiv (dtimes lit_threetenths (dz (n * m))) (dtimes lit_pi (dz (ftwentieth n * ftwentieth m))))).

(** GooseEYE.h:204. *)
Definition fscaled_radius (r : Z) (u : double) : Z := dint (dtimes (dtimes (dz r) (dz 2)) u).

Record fdraw := mkfdraw { fw_row : Z; fw_col : Z; fw_rad : double }.

(** GooseEYE.h:189-190 (one axis: circle [i] of [count]), 196-197. *)
Definition fgrid (i n count : Z) : Z := dint (ddiv (dtimes (dz i) (dz n)) (dz count)).
Definition fpitch (n count : Z) : Z := dint (ddiv (dtimes half (dz n)) (dz count)).

(** Circle [i * M + j], perturbed (GooseEYE.h:187-205). *)
Definition fgrid_row (n m : Z) (k : Z) (w : fdraw) : Z :=
  fgrid (k / ftwentieth m) n (ftwentieth n) + (fw_row w - fpitch n (ftwentieth n)).
Definition fgrid_col (n m : Z) (k : Z) (w : fdraw) : Z :=
  fgrid (k mod ftwentieth m) m (ftwentieth m) + (fw_col w - fpitch m (ftwentieth m)).

(** [dummy_circles(shape, periodic, seed)]; [UB] as in Circles.v. *)
Definition fdummy_circles_random (root : double -> double) (asrt : bool) (shape : list Z) (per : bool) (draws : list fdraw)
  : res (list Z) :=
  _ <- assertb asrt (lenZ shape =? 2) ;;
  match shape with
  | [n; m] =>
      if (ftwentieth n =? 0) || (ftwentieth m =? 0) then UB
      else
        ws <- mapM (vget draws) (zrange 0 (ftwentieth n * ftwentieth m)) ;;
        let k := zrange 0 (ftwentieth n * ftwentieth m) in
        fdummy_circles root asrt shape
          (map (fun kw => fgrid_row n m (fst kw) (snd kw)) (combine k ws))
          (map (fun kw => fgrid_col n m (fst kw) (snd kw)) (combine k ws))
          (map (fun kw => fscaled_radius (fdefault_radius root n m) (fw_rad (snd kw))) (combine k ws)) per
  | _ => UB
  end.
