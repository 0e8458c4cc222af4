(** * Path: model of detail.hpp:127-410 and GooseEYE.hpp:14-26 (pixel paths)

    [int] is modelled by [Z], with signed overflow of the differences of coordinates (and of
    the doubled differences) as [UB]; all other [int] arithmetic stays between those values
    and the coordinates.  [double] is modelled by exact rationals ([Q]): rounding is not
    modelled.  [ret] (a flat [std::vector<int>] that is reshaped to [nnz] rows) is modelled
    by the list of its rows. *)

From Coq Require Import ZArith QArith Qabs List Bool.
From Verif Require Import Base.
Import ListNotations.
Open Scope Z_scope.

(** [x[i]] for an [xt::xtensor<int, 1>]: unchecked, and the stride of an axis of length one
    is 0, so that [x[i]] reads the only element for every [i]. *)
Definition tget (l : list Z) (i : Z) : res Z :=
  if lenZ l =? 1 then vget l 0 else vget l i.

(** Range of [int]. *)
Definition i32 (z : Z) : res Z :=
  if (- 2 ^ 31 <=? z) && (z <? 2 ^ 31) then Ok z else UB.

(** ** [detail::path::bresenham] (detail.hpp:139-207) *)

(** The C arrays [int a[3], s[3], x[3], d[3]] (detail.hpp:146). *)
Inductive axis3 := X0 | X1 | X2.
Record v3 := mkv3 { c0 : Z; c1 : Z; c2 : Z }.

Definition idx (i : axis3) : Z := match i with X0 => 0 | X1 => 1 | X2 => 2 end.
Definition get (v : v3) (i : axis3) : Z := match i with X0 => c0 v | X1 => c1 v | X2 => c2 v end.
Definition set (v : v3) (i : axis3) (z : Z) : v3 :=
  match i with
  | X0 => mkv3 z (c1 v) (c2 v)
  | X1 => mkv3 (c0 v) z (c2 v)
  | X2 => mkv3 (c0 v) (c1 v) z
  end.

(** The first [ndim] entries (detail.hpp:186-187). *)
Definition row (ndim : nat) (x : v3) : list Z := firstn ndim [c0 x; c1 x; c2 x].

(** detail.hpp:148-166, one axis: defaults and initialisation; [a = 2 |xb - xa|],
    [s = SIGN(xb - xa)], [x = xa]. *)
Definition bres_axis (xa xb : list Z) (i : Z) : res (Z * Z * Z) :=
  if i <? lenZ xa then
    p <- tget xa i ;;
    q <- tget xb i ;;
    d <- i32 (q - p) ;;
    a <- i32 (2 * Z.abs d) ;;
    Ok (a, Z.sgn d, p)
  else Ok (1, 0, 0).

(** detail.hpp:171-179: [in] lists the axes other than [j]. *)
Definition others (j : axis3) : axis3 * axis3 :=
  match j with X0 => (X1, X2) | X1 => (X0, X2) | X2 => (X0, X1) end.

(** detail.hpp:168-183: the first axis whose [a] is not smaller than the others'; without
    one, [j] would be 3 ([None]). *)
Definition is_dominant (a : v3) (j : axis3) : bool :=
  Z.max (get a (fst (others j))) (get a (snd (others j))) <=? get a j.
Definition dominant (a : v3) : option axis3 :=
  if is_dominant a X0 then Some X0
  else if is_dominant a X1 then Some X1
  else if is_dominant a X2 then Some X2
  else None.

(** detail.hpp:195-200, one of the two turns of the loop. *)
Definition bres_check (aj : Z) (s : v3) (xd : v3 * v3) (i : axis3) : v3 * v3 :=
  let (x, d) := xd in
  if 0 <=? get d i then (set x i (get x i + get s i), set d i (get d i - aj)) else (x, d).

(** detail.hpp:187-205, the endless loop: at most [fuel] turns. *)
Fixpoint bres_loop (fuel : nat) (ndim : nat) (xb : list Z) (j : axis3) (a s x d : v3) :
  res (list (list Z)) :=
  match fuel with
  | O => NoFuel
  | S fuel =>
      b <- tget xb (idx j) ;;
      if get x j =? b then Ok [row ndim x]
      else
        let '(x', d') :=
          bres_check (get a j) s (bres_check (get a j) s (x, d) (fst (others j))) (snd (others j)) in
        let x'' := set x' j (get x' j + get s j) in
        let d'' := set d' (fst (others j)) (get d' (fst (others j)) + get a (fst (others j))) in
        let d''' := set d'' (snd (others j)) (get d'' (snd (others j)) + get a (snd (others j))) in
        rest <- bres_loop fuel ndim xb j a s x'' d''' ;;
        Ok (row ndim x :: rest)
  end.

(** detail.hpp:139-207.  More than three coordinates overflow the C arrays. *)
Definition bresenham (fuel : nat) (xa xb : list Z) : res (list (list Z)) :=
  if 3 <? lenZ xa then UB
  else
    i0 <- bres_axis xa xb 0 ;;
    i1 <- bres_axis xa xb 1 ;;
    i2 <- bres_axis xa xb 2 ;;
    let '(a0, s0, x0) := i0 in
    let '(a1, s1, x1) := i1 in
    let '(a2, s2, x2) := i2 in
    let a := mkv3 a0 a1 a2 in
    match dominant a with
    | None => UB
    | Some j =>
        let (p, q) := others j in
        let d := set (set (mkv3 0 0 0) p (get a p - get a j / 2)) q (get a q - get a j / 2) in
        bres_loop fuel (length xa) xb j a (mkv3 s0 s1 s2) (mkv3 x0 x1 x2) d
    end.

(** ** [detail::path::actual] and [detail::path::full] (detail.hpp:220-407) *)

(** One dimension of the arrays [cindex], [next], [x] and of the inputs [xa], [xb]; the slope
    [v] and its [sign] are recomputed where the code stores them.  The arrays [in] and [t]
    list the dimensions with non-zero slope; here these are the dimensions for which
    [active] holds, in the same order. *)
Record dimn := mkdimn { d_from : Z; d_to : Z; d_c : Z; d_next : Q; d_x : Q }.

Definition active (d : dimn) : bool := negb (d_to d - d_from d =? 0).
Definition slope (d : dimn) : Q := inject_Z (d_to d - d_from d).
Definition sign (d : dimn) : Z := Z.sgn (d_to d - d_from d).

(** detail.hpp:240-257 (and 340-357), one dimension. *)
Definition line_axis (xb : list Z) (p : Z) (i : Z) : res dimn :=
  q <- tget xb i ;;
  d <- i32 (q - p) ;;
  Ok (mkdimn p q p (inject_Z (Z.sgn d) * (1 # 2)) (inject_Z p)).

Fixpoint line_init (xa xb : list Z) (i : Z) : res (list dimn) :=
  match xa with
  | [] => Ok []
  | p :: xa' => d <- line_axis xb p i ;; r <- line_init xa' xb (i + 1) ;; Ok (d :: r)
  end.

(** detail.hpp:263-266 (363-366): distance to the next intersection. *)
Definition dist (d : dimn) : Q := ((d_next d - d_x d) / slope d)%Q.

(** detail.hpp:269-274 (369-374): [t[imin]]; with no active dimension [t[0]] is read
    uninitialised ([None]). *)
Definition Qltb (a b : Q) : bool := negb (Qle_bool b a).

Fixpoint tmin_from (t : Q) (l : list dimn) : Q :=
  match l with
  | [] => t
  | d :: l' => tmin_from (if Qltb (dist d) t then dist d else t) l'
  end.

Definition tmin (l : list dimn) : option Q :=
  match filter active l with
  | [] => None
  | d :: l' => Some (tmin_from (dist d) l')
  end.

(** detail.hpp:279 (379): [fabs(t[iin] - t[imin]) < 1.e-6]. *)
Definition crosses (tm : Q) (d : dimn) : bool :=
  active d && Qltb (Qabs (dist d - tm)) (1 # 1000000).

(** detail.hpp:280-281 (380-381). *)
Definition cross (d : dimn) : dimn :=
  mkdimn (d_from d) (d_to d) (d_c d + sign d) (d_next d + inject_Z (sign d)) (d_x d).

(** detail.hpp:290-292 (390-392). *)
Definition move (tm : Q) (d : dimn) : dimn :=
  mkdimn (d_from d) (d_to d) (d_c d) (d_next d) (inject_Z (d_from d) + slope d * tm).

Definition cindex (l : list dimn) : list Z := map d_c l.

(** detail.hpp:278-283: all dimensions, the row is stored once afterwards (285-288). *)
Definition cross_all (tm : Q) (l : list dimn) : list dimn :=
  map (fun d => if crosses tm d then cross d else d) l.

(** detail.hpp:378-388: the row is stored after each crossing; [done] is the part of the list
    that has been dealt with. *)
Fixpoint cross_each (tm : Q) (done todo : list dimn) : list (list Z) :=
  match todo with
  | [] => []
  | d :: todo' =>
      if crosses tm d
      then cindex (done ++ cross d :: todo') :: cross_each tm (done ++ [cross d]) todo'
      else cross_each tm (done ++ [d]) todo'
  end.

(** detail.hpp:295-303 (395-403). *)
Definition reached (l : list dimn) : bool := forallb (fun d => d_c d =? d_to d) l.

(** detail.hpp:260-304 (360-404): at most [fuel] turns. *)
Fixpoint line_loop (full : bool) (fuel : nat) (l : list dimn) : res (list (list Z)) :=
  match fuel with
  | O => NoFuel
  | S fuel =>
      match tmin l with
      | None => UB
      | Some tm =>
          let l' := map (move tm) (cross_all tm l) in
          let rows := if full then cross_each tm [] l else [cindex l'] in
          if reached l' then Ok rows
          else
            rest <- line_loop full fuel l' ;;
            Ok (rows ++ rest)
      end
  end.

(** [actual] (detail.hpp:220-307) is [line false], [full] (detail.hpp:320-407) is
    [line true]. *)
Definition line (full : bool) (fuel : nat) (xa xb : list Z) : res (list (list Z)) :=
  if 3 <? lenZ xa then UB
  else
    l <- line_init xa xb 0 ;;
    rest <- line_loop full fuel l ;;
    Ok (cindex l :: rest).

(** ** [path] (GooseEYE.hpp:14-26; path_mode: GooseEYE.h:93-97) *)
Inductive path_mode := Bresenham | actual | full.

Definition path (fuel : nat) (x0 x1 : list Z) (mode : path_mode) : res (list (list Z)) :=
  match mode with
  | Bresenham => bresenham fuel x0 x1
  | actual => line false fuel x0 x1
  | full => line true fuel x0 x1
  end.
