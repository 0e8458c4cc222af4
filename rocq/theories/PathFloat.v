(** * PathFloat: detail.hpp:220-410 (paths [actual] and [full]) once more, now with [double] as
    IEEE 754 numbers

    Path.v models the same code with exact rationals.  Here every operation rounds (to nearest
    even; products and sums are not contracted to fused operations).  Names carry an [f]. *)

From Coq Require Import ZArith List Bool.
From Flocq Require Import Core BinarySingleNaN.
From Verif Require Import Base Path Double.
Import ListNotations.
Open Scope Z_scope.

(** [fabs(x)] and [x < y]. *)
Definition dabs (x : double) : double := Babs x.
Definition dlt (x y : double) : bool := Bltb x y.

(** [(int)x]: towards zero (values outside the range of [int] do not occur here). *)
Definition dint (x : double) : Z :=
  match x with
  | B754_finite s m e _ =>
      let z := if 0 <=? e then Zpos m * 2 ^ e else Zpos m / 2 ^ (- e) in if s then - z else z
  | _ => 0
  end.

(** The literals [0.5] and [1.e-6]. *)
Definition half : double := ddiv done (dz 2).
Definition tolerance : double := ddiv done (dz 1000000).

(** One dimension of the arrays (detail.hpp:226-235): the end points, the current pixel, and
    [v], [sign], [isign], [next], [x]. *)
Record fdimn := mkfdimn {
  g_from : Z; g_to : Z; g_c : Z; g_v : double; g_sign : double; g_isign : Z; g_next : double; g_x : double
}.

(** [if (v[i])] (detail.hpp:250); the dimensions listed in [in]. *)
Definition factive (d : fdimn) : bool := negb (deq (g_v d) dzero).

(** detail.hpp:240-257 (340-357), one dimension.  [sign], [isign] and [next] are left
    uninitialised where [v] is zero, and not used then. *)
Definition fline_axis (xb : list Z) (p : Z) (i : Z) : res fdimn :=
  q <- tget xb i ;;
  d <- i32 (q - p) ;;
  let v := dz d in
  let sign := if deq v dzero then dzero else ddiv v (dabs v) in
  Ok (mkfdimn p q p v sign (dint sign) (dtimes sign half) (dz p)).

Fixpoint fline_init (xa xb : list Z) (i : Z) : res (list fdimn) :=
  match xa with
  | [] => Ok []
  | p :: xa' => d <- fline_axis xb p i ;; r <- fline_init xa' xb (i + 1) ;; Ok (d :: r)
  end.

(** detail.hpp:265 (365). *)
Definition fdist (d : fdimn) : double := ddiv (dminus (g_next d) (g_x d)) (g_v d).

(** detail.hpp:269-274 (369-374): [t[imin]]. *)
Fixpoint ftmin_from (t : double) (l : list fdimn) : double :=
  match l with
  | [] => t
  | d :: l' => ftmin_from (if dlt (fdist d) t then fdist d else t) l'
  end.

Definition ftmin (l : list fdimn) : option double :=
  match filter factive l with
  | [] => None
  | d :: l' => Some (ftmin_from (fdist d) l')
  end.

(** detail.hpp:279 (379). *)
Definition fcrosses (tm : double) (d : fdimn) : bool :=
  factive d && dlt (dabs (dminus (fdist d) tm)) tolerance.

(** detail.hpp:280-281 (380-381). *)
Definition fcross (d : fdimn) : fdimn :=
  mkfdimn (g_from d) (g_to d) (g_c d + g_isign d) (g_v d) (g_sign d) (g_isign d) (dplus (g_next d) (g_sign d)) (g_x d).

(** detail.hpp:291 (391). *)
Definition fmove (tm : double) (d : fdimn) : fdimn :=
  mkfdimn (g_from d) (g_to d) (g_c d) (g_v d) (g_sign d) (g_isign d) (g_next d) (dplus (dz (g_from d)) (dtimes (g_v d) tm)).

Definition findex (l : list fdimn) : list Z := map g_c l.

(** detail.hpp:278-283. *)
Definition fcross_all (tm : double) (l : list fdimn) : list fdimn :=
  map (fun d => if fcrosses tm d then fcross d else d) l.

(** detail.hpp:378-388. *)
Fixpoint fcross_each (tm : double) (done todo : list fdimn) : list (list Z) :=
  match todo with
  | [] => []
  | d :: todo' =>
      if fcrosses tm d
      then findex (done ++ fcross d :: todo') :: fcross_each tm (done ++ [fcross d]) todo'
      else fcross_each tm (done ++ [d]) todo'
  end.

(** detail.hpp:295-303 (395-403). *)
Definition freached (l : list fdimn) : bool := forallb (fun d => g_c d =? g_to d) l.

(** detail.hpp:260-304 (360-404): at most [fuel] turns. *)
Fixpoint fline_loop (full : bool) (fuel : nat) (l : list fdimn) : res (list (list Z)) :=
  match fuel with
  | O => NoFuel
  | S fuel =>
      match ftmin l with
      | None => UB
      | Some tm =>
          let l' := map (fmove tm) (fcross_all tm l) in
          let rows := if full then fcross_each tm [] l else [findex l'] in
          if freached l' then Ok rows
          else
            rest <- fline_loop full fuel l' ;;
            Ok (rows ++ rest)
      end
  end.

(** [actual] (detail.hpp:220-307), [full] (detail.hpp:320-407). *)
Definition fline (full : bool) (fuel : nat) (xa xb : list Z) : res (list (list Z)) :=
  if 3 <? lenZ xa then UB
  else
    l <- fline_init xa xb 0 ;;
    rest <- fline_loop full fuel l ;;
    Ok (findex l :: rest).

(** [path] (GooseEYE.hpp:14-26); [bresenham] has no [double]s. *)
Definition fpath (fuel : nat) (x0 x1 : list Z) (mode : path_mode) : res (list (list Z)) :=
  match mode with
  | Bresenham => bresenham fuel x0 x1
  | actual => fline false fuel x0 x1
  | full => fline true fuel x0 x1
  end.
