(** * Array3: rank-three arrays, [xt::atleast_3d], [xt::pad], [detail::pad_width]

    What the rest of the library uses of xtensor's containers. *)

From Coq Require Import ZArith List Bool.
From Verif Require Import Base.
Import ListNotations.
Open Scope Z_scope.

(** [array_type::tensor<A, 3>]: shape and row-major data. *)
Record arr (A : Type) := mkarr { d0 : Z; d1 : Z; d2 : Z; dat : list A }.
Arguments mkarr {A} _ _ _ _.
Arguments d0 {A} _.
Arguments d1 {A} _.
Arguments d2 {A} _.
Arguments dat {A} _.

Definition flat3 (n1 n2 h i j : Z) : Z := (h * n1 + i) * n2 + j.

Definition inb {A} (a : arr A) (h i j : Z) : bool :=
  (0 <=? h) && (h <? d0 a) && (0 <=? i) && (i <? d1 a) && (0 <=? j) && (j <? d2 a).

(** [a(h, i, j)]: unchecked in xtensor, so out of range is [UB]. *)
Definition aget {A} (a : arr A) (h i j : Z) : res A :=
  if inb a h i j then vget (dat a) (flat3 (d1 a) (d2 a) h i j) else UB.

(** Total read, for positions already known to be in range. *)
Definition at3 {A} (d : A) (a : arr A) (h i j : Z) : A :=
  nth (Z.to_nat (flat3 (d1 a) (d2 a) h i j)) (dat a) d.

(** Array filled position by position (the evaluation of an xtensor expression). *)
Definition tab {A} (n0 n1 n2 : Z) (f : Z -> Z -> Z -> A) : arr A :=
  mkarr n0 n1 n2
    (map (fun p => f (p / (n1 * n2)) (p / n2 mod n1) (p mod n2))
         (zseq 0 (Z.to_nat (n0 * n1 * n2)))).

(** Positions of [for h in h0..h1 { for i in i0..i1 { for j in j0..j1 ...]. *)
Definition loop3 (h0 h1 i0 i1 j0 j1 : Z) : list (Z * Z * Z) :=
  flat_map (fun h => flat_map (fun i => map (fun j => (h, i, j)) (zrange j0 j1))
                              (zrange i0 i1)) (zrange h0 h1).

(** Shape of [xt::atleast_3d]: (n) becomes (1, n, 1), (n, m) becomes (n, m, 1).  A higher
    rank cannot be stored in a [tensor<_, 3>]. *)
Definition shape3 (shape : list Z) : res (Z * Z * Z) :=
  match shape with
  | [] => Ok (1, 1, 1)
  | [n] => Ok (1, n, 1)
  | [n; m] => Ok (n, m, 1)
  | [n; m; k] => Ok (n, m, k)
  | _ => UB
  end.

(** [xt::atleast_3d]: the data does not move. *)
Definition atleast_3d {A} (shape : list Z) (vals : list A) : res (arr A) :=
  s <- shape3 shape ;;
  let '(n0, n1, n2) := s in Ok (mkarr n0 n1 n2 vals).

(** [detail::atleast_3d_axis] (detail.hpp:23-30): [round((3 - rank) / 3)]; its [assert]s are
    [<cassert>] ones and hold at every call. *)
Definition atleast_3d_axis (rank axis : Z) : Z := axis + (if 3 - rank <=? 1 then 0 else 1).

(** [detail::pad_width] (detail.hpp:100-116), one axis; [size_t] arithmetic, so length 0
    wraps around. *)
Definition pad_axis (n : Z) : Z * Z :=
  if n mod 2 =? 0 then ((n / 2 - 1) mod 18446744073709551616, n / 2)
  else ((n - 1) / 2, (n - 1) / 2).

Definition pads := ((Z * Z) * (Z * Z) * (Z * Z))%type.

Definition pad_width (n0 n1 n2 : Z) : pads := (pad_axis n0, pad_axis n1, pad_axis n2).

(** [xt::pad(a, pad, constant, v)]. *)
Definition pad_constant {A} (v : A) (a : arr A) (P : pads) : arr A :=
  let '((p0, q0), (p1, q1), (p2, q2)) := P in
  tab (p0 + d0 a + q0) (p1 + d1 a + q1) (p2 + d2 a + q2)
    (fun h i j => if inb a (h - p0) (i - p1) (j - p2)
                  then at3 v a (h - p0) (i - p1) (j - p2) else v).

(** [xt::pad(a, pad, periodic)]: slabs are copied from the opposite side; widths beyond the
    length of the axis are outside what xtensor supports. *)
Definition pad_periodic {A} (v : A) (a : arr A) (P : pads) : res (arr A) :=
  let '((p0, q0), (p1, q1), (p2, q2)) := P in
  if (p0 <=? d0 a) && (q0 <=? d0 a) && (p1 <=? d1 a) && (q1 <=? d1 a) &&
     (p2 <=? d2 a) && (q2 <=? d2 a)
  then Ok (tab (p0 + d0 a + q0) (p1 + d1 a + q1) (p2 + d2 a + q2)
         (fun h i j => at3 v a ((h - p0) mod d0 a) ((i - p1) mod d1 a) ((j - p2) mod d2 a)))
  else UB.

(** [xt::amax(a)()] needs an element. *)
Definition amax (l : list Z) : res Z :=
  match l with
  | [] => UB
  | x :: t => Ok (fold_left Z.max t x)
  end.
