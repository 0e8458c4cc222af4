(** * IntArith: [path] (GooseEYE.hpp:14-26) and [dummy_circles] (GooseEYE.h:120-162) once more,
    now with every operation on [int]s checked

    Path.v, PathFloat.v, Circles.v and CirclesFloat.v model the same code with integers that do
    not overflow in the loops.  Here the result of every addition, subtraction, negation,
    increment and conversion to [int] has to fit: otherwise it is undefined ([i32], Path.v).
    The operations on [double]s round, as in PathFloat.v and CirclesFloat.v.  The counters that
    run over at most three dimensions are left out.  Names carry an [i]. *)

From Coq Require Import ZArith List Bool.
From Verif Require Import Base Path Circles Double PathFloat CirclesFloat.
Import ListNotations.
Open Scope Z_scope.

(** detail.hpp:195-200, one of the two turns of the loop. *)
Definition ibres_check (aj : Z) (s : v3) (xd : v3 * v3) (i : axis3) : res (v3 * v3) :=
  let (x, d) := xd in
  if 0 <=? get d i then
    xi <- i32 (get x i + get s i) ;;
    di <- i32 (get d i - aj) ;;
    Ok (set x i xi, set d i di)
  else Ok (x, d).

(** detail.hpp:187-205; [nnz] counts the pixels (190). *)
Fixpoint ibres_loop (fuel : nat) (ndim : nat) (xb : list Z) (j : axis3) (a s x d : v3) (nnz : Z) :
  res (list (list Z)) :=
  match fuel with
  | O => NoFuel
  | S fuel =>
      nnz' <- i32 (nnz + 1) ;;
      b <- tget xb (idx j) ;;
      if get x j =? b then Ok [row ndim x]
      else
        xd <- ibres_check (get a j) s (x, d) (fst (others j)) ;;
        xd <- ibres_check (get a j) s xd (snd (others j)) ;;
        let (x', d') := (xd : v3 * v3) in
        xj <- i32 (get x' j + get s j) ;;
        let x'' := set x' j xj in
        dp <- i32 (get d' (fst (others j)) + get a (fst (others j))) ;;
        let d'' := set d' (fst (others j)) dp in
        dq <- i32 (get d'' (snd (others j)) + get a (snd (others j))) ;;
        let d''' := set d'' (snd (others j)) dq in
        rest <- ibres_loop fuel ndim xb j a s x'' d''' nnz' ;;
        Ok (row ndim x :: rest)
  end.

(** detail.hpp:139-207; the initialisation ([bres_axis]) is checked in Path.v already. *)
Definition ibresenham (fuel : nat) (xa xb : list Z) : res (list (list Z)) :=
  if 3 <? lenZ xa then UB
  else
    i0 <- bres_axis xa xb 0 ;;
    i1 <- bres_axis xa xb 1 ;;
    i2 <- bres_axis xa xb 2 ;;
    let '(a0, s0, x0) := i0 in
    let '(a1, s1, x1) := i1 in
    let '(a2, s2, x2) := i2 in
    let a := mkv3 a0 a1 a2 in
    match dominant a with
    | None => UB
    | Some j =>
        let (p, q) := others j in
        dp <- i32 (get a p - get a j / 2) ;;
        dq <- i32 (get a q - get a j / 2) ;;
        let d := set (set (mkv3 0 0 0) p dp) q dq in
        ibres_loop fuel (length xa) xb j a (mkv3 s0 s1 s2) (mkv3 x0 x1 x2) d 0
    end.

(** detail.hpp:280-281 (380-381): [cindex[in[iin]] += isign[in[iin]]]. *)
Definition icross (d : fdimn) : res fdimn :=
  _ <- i32 (g_c d + g_isign d) ;; Ok (fcross d).

(** detail.hpp:278-288: one [nnz++] for all dimensions. *)
Definition icross_all (tm : double) (l : list fdimn) (nnz : Z) : res (list fdimn * list (list Z) * Z) :=
  l' <- mapM (fun d => if fcrosses tm d then icross d else Ok d) l ;;
  nnz' <- i32 (nnz + 1) ;;
  Ok (l', [findex l'], nnz').

(** detail.hpp:378-388: one [nnz++] for each crossing. *)
Fixpoint icross_each (tm : double) (done todo : list fdimn) (nnz : Z) : res (list fdimn * list (list Z) * Z) :=
  match todo with
  | [] => Ok (done, [], nnz)
  | d :: todo' =>
      if fcrosses tm d then
        d' <- icross d ;;
        nnz' <- i32 (nnz + 1) ;;
        r <- icross_each tm (done ++ [d']) todo' nnz' ;;
        let '(l, rows, n) := r in
        Ok (l, findex (done ++ d' :: todo') :: rows, n)
      else icross_each tm (done ++ [d]) todo' nnz
  end.

(** detail.hpp:260-304 (360-404): at most [fuel] turns. *)
Fixpoint iline_loop (full : bool) (fuel : nat) (l : list fdimn) (nnz : Z) : res (list (list Z)) :=
  match fuel with
  | O => NoFuel
  | S fuel =>
      match ftmin l with
      | None => UB
      | Some tm =>
          r <- (if full then icross_each tm [] l nnz else icross_all tm l nnz) ;;
          let '(l0, rows, nnz') := r in
          let l' := map (fmove tm) l0 in
          if freached l' then Ok rows
          else
            rest <- iline_loop full fuel l' nnz' ;;
            Ok (rows ++ rest)
      end
  end.

(** [actual] (detail.hpp:220-307), [full] (detail.hpp:320-407); [nnz] starts at one (234,
    334), the initialisation ([fline_axis]) is checked in PathFloat.v already. *)
Definition iline (full : bool) (fuel : nat) (xa xb : list Z) : res (list (list Z)) :=
  if 3 <? lenZ xa then UB
  else
    l <- fline_init xa xb 0 ;;
    rest <- iline_loop full fuel l 1 ;;
    Ok (findex l :: rest).

(** [path] (GooseEYE.hpp:14-26). *)
Definition ipath (fuel : nat) (x0 x1 : list Z) (mode : path_mode) : res (list (list Z)) :=
  match mode with
  | Bresenham => ibresenham fuel x0 x1
  | actual => iline false fuel x0 x1
  | full => iline true fuel x0 x1
  end.

(** ** Circles *)

(** The values of [di] (and [dj]) in [for (int di = -r; di <= r; ++di)] (GooseEYE.h:135-136,
    149-150): [-r] and, if the body is executed, the value [r + 1] that ends the loop are
    [int]s. *)
Definition irange (r : Z) : res (list Z) :=
  lo <- i32 (- r) ;;
  if lo <=? r then hi <- i32 (r + 1) ;; Ok (zrange lo hi) else Ok [].

(** [(int)(ceil(pow((double)(pow(di, 2) + pow(dj, 2)), 0.5)))] (GooseEYE.h:137, 152). *)
Definition iradius (root : double -> double) (di dj : Z) : res Z := i32 (dceil (root (fsquares di dj))).

(** The body (GooseEYE.h:137-140, periodic). *)
Definition ipaint_periodic (root : double -> double) (n m x y r : Z) (out : list Z) (di dj : Z) : res (list Z) :=
  dr <- iradius root di dj ;;
  if dr <? r then
    a <- i32 (x + di) ;; b <- i32 (y + dj) ;; paint_periodic n m out a b
  else Ok out.

(** The body (GooseEYE.h:151-156, not periodic). *)
Definition ipaint_inside (root : double -> double) (n m x y r : Z) (out : list Z) (di dj : Z) : res (list Z) :=
  a <- i32 (x + di) ;; b <- i32 (y + dj) ;;
  if (0 <=? a) && (a <? n) && (0 <=? b) && (b <? m) then
    dr <- iradius root di dj ;;
    if dr <? r then paint_inside n m out a b else Ok out
  else Ok out.

(** One circle (GooseEYE.h:135-142, 149-158). *)
Definition ipaint_circle (root : double -> double) (per : bool) (n m : Z) (row col r : list Z) (out : list Z) (i : Z)
  : res (list Z) :=
  x <- tget row i ;;
  y <- tget col i ;;
  rad <- tget r i ;;
  dis <- irange rad ;;
  foldM (fun out di =>
           djs <- irange rad ;;
           foldM (fun out dj => (if per then ipaint_periodic else ipaint_inside) root n m x y rad out di dj) djs out)
        dis out.

(** GooseEYE.h:120-162. *)
Definition idummy_circles (root : double -> double) (asrt : bool) (shape row col r : list Z) (per : bool) : res (list Z) :=
  _ <- assertb asrt (lenZ row =? lenZ col) ;;
  _ <- assertb asrt (lenZ row =? lenZ r) ;;
  _ <- assertb asrt (lenZ shape =? 2) ;;
  match shape with
  | [n; m] =>
      foldM (ipaint_circle root per n m row col r) (zrange 0 (lenZ row)) (repeat 0 (Z.to_nat (n * m)))
  | _ => UB
  end.
