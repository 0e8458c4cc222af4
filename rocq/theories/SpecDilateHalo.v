(** * SpecDilateHalo: the passes of a dilation of a periodic image

    An image of lower rank is one with axes of length one.  Places are the points of the whole lattice: those with
    [0 <= x < n0], [0 <= y < n1], [0 <= z < n2] are the pixels, the others lie around the image. *)

From Coq Require Import ZArith List Bool.
From Verif Require Import Base.
Import ListNotations.
Open Scope Z_scope.

Definition place : Type := Z * Z * Z.
(** A label for every place (zero: none). *)
Definition field : Type := place -> Z.

Definition triple (shape : list Z) : place :=
  match shape with
  | [b] => (1, b, 1)
  | [a; b] => (a, b, 1)
  | [a; b; c] => (a, b, c)
  | _ => (1, 1, 1)
  end.

Inductive axis := Ax0 | Ax1 | Ax2.
Definition along (a : axis) (q : place) : Z :=
  let '(x, y, z) := q in match a with Ax0 => x | Ax1 => y | Ax2 => z end.
Definition shift (a : axis) (t : Z) (q : place) : place :=
  let '(x, y, z) := q in match a with Ax0 => (x + t, y, z) | Ax1 => (x, y + t, z) | Ax2 => (x, y, z + t) end.

(** The pixels of an image, in row-major order. *)
Definition pixels (n : place) : list place :=
  let '(n0, n1, n2) := n in
  flat_map (fun x => flat_map (fun y => map (fun z => (x, y, z)) (zrange 0 n2)) (zrange 0 n1)) (zrange 0 n0).

(** [new], if it is a label. *)
Definition prefer (new old : Z) : Z := if new =? 0 then old else new.

Section Halo.
Variables (n k : place) (kv iterations : list Z).

(** How far the kernel reaches below and above its origin. *)
Definition below (a : axis) : Z := (along a k - 1) / 2.
Definition above (a : axis) : Z := along a k / 2.

(** The kernel is 1 at the displacement from [p] to [q]. *)
Definition covers (p q : place) : bool :=
  let r a := along a q - along a p + below a in
  let ok a := (0 <=? r a) && (r a <? along a k) in
  ok Ax0 && ok Ax1 && ok Ax2 && (zn kv ((r Ax0 * along Ax1 k + r Ax1) * along Ax2 k + r Ax2) =? 1).

(** In pass [i] (counted from zero) [p] passes its label to [q]. *)
Definition gives (i : Z) (v : field) (p q : place) : bool :=
  negb (v p =? 0) && (i <? zn iterations (v p)) && covers p q.

(** Every place without label, also around the image, takes the label of the last pixel that passes one to it,
    without crossing a boundary. *)
Definition spread (i : Z) (v : field) : field := fun q =>
  if v q =? 0 then last (map v (filter (fun p => gives i v p q) (pixels n))) 0 else v q.

(** What lies beyond the upper end of axis [a] is put over the first pixels of that axis, and what lies beyond the
    lower end over the last pixels. *)
Definition from_above (a : axis) (v : field) : field := fun q =>
  if (0 <=? along a q) && (along a q <? above a) then prefer (v (shift a (along a n) q)) (v q) else v q.
Definition from_below (a : axis) (v : field) : field := fun q =>
  if (along a n - below a <=? along a q) && (along a q <? along a n)
  then prefer (v (shift a (- along a n) q)) (v q) else v q.

Definition fold_back (v : field) : field :=
  from_below Ax2 (from_below Ax1 (from_below Ax0 (from_above Ax2 (from_above Ax1 (from_above Ax0 v))))).

(** The field after the first [i] passes. *)
Fixpoint passes (i : nat) (v : field) : field :=
  match i with O => v | S i => fold_back (spread (Z.of_nat i) (passes i v)) end.

(** The image and its periodic images. *)
Definition tiled (f : list Z) : field := fun q =>
  zn f ((along Ax0 q mod along Ax0 n * along Ax1 n + along Ax1 q mod along Ax1 n) * along Ax2 n + along Ax2 q mod along Ax2 n).

(** ** One pass, pixel by pixel *)

(** A place displaced by whole images. *)
Definition image_of (s q : place) : place :=
  shift Ax0 (along Ax0 s * along Ax0 n) (shift Ax1 (along Ax1 s * along Ax1 n) (shift Ax2 (along Ax2 s * along Ax2 n) q)).

(** Whose label counts more: [s] says over which boundaries the pixel was reached, -1 being the lower end of an axis,
    1 the upper end.  First whether the lower end of the last axis was crossed, then that of the one before, ..., then
    whether the upper end of the last axis was crossed, ...; *)
Definition weight (s : place) : Z :=
  let is a t := if along a s =? t then 1 else 0 in
  32 * is Ax2 (-1) + 16 * is Ax1 (-1) + 8 * is Ax0 (-1) + 4 * is Ax2 1 + 2 * is Ax1 1 + is Ax0 1.

Definition crossing (s : place) : Prop := forall a, -1 <= along a s <= 1.

(** ... then which comes later in the image. *)
Definition later (p q : place) : Prop :=
  along Ax0 q < along Ax0 p \/ along Ax0 q = along Ax0 p /\
    (along Ax1 q < along Ax1 p \/ along Ax1 q = along Ax1 p /\ along Ax2 q < along Ax2 p).

Definition in_image (q : place) : Prop := forall a, 0 <= along a q < along a n.

(** Pixel [p] passes its label to [q] over the boundaries [s]. *)
Definition passes_to (v : field) (p s q : place) : Prop :=
  in_image p /\ crossing s /\ v p <> 0 /\ 0 < zn iterations (v p) /\ covers p (image_of s q) = true.

(** No boundary is within reach of the kernel. *)
Definition away (q : place) : Prop := forall a, above a <= along a q < along a n - below a.
End Halo.
