(** * SpecLayout: vocabulary of the statements about arrays in memory (C134) *)

From Coq Require Import ZArith List.
From Verif Require Import Base Cluster SpecCluster Layout.
Import ListNotations.
Open Scope Z_scope.

(** Where the element with coordinates [ix] is, counted in elements from the data pointer. *)
Fixpoint place (ix strides : list Z) : Z :=
  match ix, strides with
  | i :: ix', s :: strides' => i * s + place ix' strides'
  | _, _ => 0
  end.

(** The same for pixel [p] of an array (pixels are counted in row-major order). *)
Definition place_of (a : marr) (p : Z) : Z := place (coords (m_shape a) p) (m_strides a).

(** The array [a] has the elements [img] (in row-major order), all of them in its memory. *)
Definition holds (a : marr) (img : list Z) : Prop :=
  Forall (fun n => 0 <= n) (m_shape a) /\
  length (m_strides a) = length (m_shape a) /\
  lenZ img = zprod (m_shape a) /\
  forall p, pixel (m_shape a) p ->
    0 <= m_base a + place_of a p < lenZ (m_block a) /\
    zn (m_block a) (m_base a + place_of a p) = zn img p.

(** The elements are in memory one after the other in row-major order (NumPy: order "C"). *)
Definition c_order (a : marr) : Prop := forall p, pixel (m_shape a) p -> place_of a p = p.

(** Number of a pixel in column-major order: the first coordinate runs fastest. *)
Fixpoint column (shape ix : list Z) : Z :=
  match shape, ix with
  | n :: shape', i :: ix' => i + n * column shape' ix'
  | _, _ => 0
  end.

(** The elements are in memory one after the other in column-major order (NumPy: order "F",
    the transpose of an array in row-major order). *)
Definition f_order (a : marr) : Prop :=
  forall p, pixel (m_shape a) p -> place_of a p = column (m_shape a) (coords (m_shape a) p).

(** The elements are in memory one after the other in some order, without gaps: also an array
    of which the axes were exchanged. *)
Definition dense (a : marr) : Prop :=
  forall i, 0 <= i < zprod (m_shape a) -> exists p, pixel (m_shape a) p /\ place_of a p = i.

(** The call [x] returns an array with the elements that the call [y] returns, and fails if
    [y] fails. *)
Definition same_outcome (shape : list Z) (x : res marr) (y : res (list Z)) : Prop :=
  match x, y with
  | Ok a, Ok l => m_shape a = shape /\ holds a l
  | Throw, Throw => True
  | UB, UB => True
  | NoFuel, NoFuel => True
  | _, _ => False
  end.
