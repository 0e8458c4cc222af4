(** * Circles: model of [dummy_circles] (GooseEYE.h:111-208)

    Coordinates are unbounded integers ([int] overflow is modelled in IntArith.v). *)

From Coq Require Import ZArith List Bool Reals.
From Verif Require Import Base Path.
Import ListNotations.
Open Scope Z_scope.

(** The two inner loops over [di] and [dj] (GooseEYE.h:135-136, 149-150) and the test
    [dr < r(i)] (137-138, 152-153); [dr] is the square root rounded up, for which [Z.sqrt_up]
    stands (doubles are exact enough for integer squares below 2^52). *)
Definition disc (r : Z) : list (Z * Z) :=
  filter (fun d => Z.sqrt_up (fst d ^ 2 + snd d ^ 2) <? r)
         (list_prod (zrange (- r) (r + 1)) (zrange (- r) (r + 1))).

(** [out.periodic(a, b) = 1] (GooseEYE.h:139): xtensor takes the index modulo the shape. *)
Definition paint_periodic (n m : Z) (out : list Z) (a b : Z) : res (list Z) :=
  if (n =? 0) || (m =? 0) then UB else vset out (a mod n * m + b mod m) 1.

(** [if (out.in_bounds(a, b)) out(a, b) = 1] (GooseEYE.h:151-154); the order of the two tests
    does not matter.  Contract of xtensor: [in_bounds] is [0 <= a < n] and [0 <= b < m]. *)
Definition paint_inside (n m : Z) (out : list Z) (a b : Z) : res (list Z) :=
  if (0 <=? a) && (a <? n) && (0 <=? b) && (b <? m)
  then vset out ((if n =? 1 then 0 else a * m) + (if m =? 1 then 0 else b)) 1
  else Ok out.

(** One circle (GooseEYE.h:135-142, 149-158). *)
Definition paint_circle (per : bool) (n m : Z) (row col r : list Z) (out : list Z) (i : Z)
  : res (list Z) :=
  x <- tget row i ;;
  y <- tget col i ;;
  rad <- tget r i ;;
  foldM (fun out d => (if per then paint_periodic else paint_inside) n m out (x + fst d) (y + snd d))
        (disc rad) out.

(** [dummy_circles(shape, row, col, r, periodic)] (GooseEYE.h:120-162): the flattened image.
    A shape that is not two-dimensional (possible without assertions) is not modelled: [UB]. *)
Definition dummy_circles (asrt : bool) (shape row col r : list Z) (per : bool) : res (list Z) :=
  _ <- assertb asrt (lenZ row =? lenZ col) ;;
  _ <- assertb asrt (lenZ row =? lenZ r) ;;
  _ <- assertb asrt (lenZ shape =? 2) ;;
  match shape with
  | [n; m] =>
      foldM (paint_circle per n m row col r) (zrange 0 (lenZ row)) (repeat 0 (Z.to_nat (n * m)))
  | _ => UB
  end.

(** ** Random circles (GooseEYE.h:171-208) *)

(** [(size_t)(0.05 * n)] (GooseEYE.h:178-179), with exact arithmetic. *)
Definition twentieth (n : Z) : Z := n / 20.

(** The default radius (GooseEYE.h:180), truncated to an integer. *)
Definition default_radius (n m : Z) : Z :=
  Int_part (sqrt ((3 / 10 * IZR (n * m)) / (PI * IZR (twentieth n * twentieth m)))).

(** [2 r(i) random()] truncated (GooseEYE.h:204). *)
Definition scaled_radius (r : Z) (u : R) : Z := Int_part (IZR r * 2 * u).

(** One draw per circle of the generator: two integers ([randint]) and one number
    ([random]). *)
Record draw := mkdraw { w_row : Z; w_col : Z; w_rad : R }.

(** Circle [i * M + j] of the grid, perturbed (GooseEYE.h:187-205). *)
Definition grid_row (n m : Z) (k : Z) (w : draw) : Z :=
  k / twentieth m * n / twentieth n + (w_row w - n / (2 * twentieth n)).
Definition grid_col (n m : Z) (k : Z) (w : draw) : Z :=
  k mod twentieth m * m / twentieth m + (w_col w - m / (2 * twentieth m)).

(** [dummy_circles(shape, periodic, seed)]: [draws] are the numbers the generator returns.
    With fewer than twenty pixels along an axis there are no circles and the code divides by
    zero and converts the infinite result to an integer, which is undefined. *)
Definition dummy_circles_random (asrt : bool) (shape : list Z) (per : bool) (draws : list draw)
  : res (list Z) :=
  _ <- assertb asrt (lenZ shape =? 2) ;;
  match shape with
  | [n; m] =>
      if (twentieth n =? 0) || (twentieth m =? 0) then UB
      else
        ws <- mapM (vget draws) (zrange 0 (twentieth n * twentieth m)) ;;
        let k := zrange 0 (twentieth n * twentieth m) in
        dummy_circles asrt shape
          (map (fun kw => grid_row n m (fst kw) (snd kw)) (combine k ws))
          (map (fun kw => grid_col n m (fst kw) (snd kw)) (combine k ws))
          (map (fun kw => scaled_radius (default_radius n m) (w_rad (snd kw))) (combine k ws)) per
  | _ => UB
  end.
