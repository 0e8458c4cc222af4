(** * SpecCenter: vocabulary of the statements about centers

    Independent of the model, but for its type [num] of results. *)

From Coq Require Import ZArith List Reals.
From Verif Require Import Base Cluster SpecCluster Center.
Import ListNotations.
Open Scope R_scope.

(** Coordinate [k] of a position. *)
Definition coordinate (k : nat) (p : list R) : R := nth k p 0.

(** Sum of [f] over a list. *)
Fixpoint total {A} (f : A -> R) (l : list A) : R :=
  match l with
  | [] => 0
  | a :: t => f a + total f t
  end.

(** Positions with one coordinate per axis. *)
Definition fit (shape : list R) (positions : list (list R)) : Prop :=
  forall p, In p positions -> length p = length shape.

(** The result has the number [c] at axis [k]. *)
Definition at_axis (r : list num) (k : nat) (c : R) : Prop := nth_error r k = Some (Num c).

(** Length of axis [k] of the box. *)
Definition side (shape : list R) (k : nat) : R := nth k shape 0.

(** [a] and [b] are the same point of a periodic axis of length [len]. *)
Definition same_point (len a b : R) : Prop := exists m : Z, b = a + IZR m * len.

(** Weighted positions: pairs of a position and its weight. *)
Definition mass := (list R * R)%type.

(** The two components of the (weighted) sum of the positions of axis [k] seen as points on a
    circle of circumference [len]. *)
Definition sum_cos (len : R) (k : nat) (l : list mass) : R :=
  total (fun m => snd m * cos (2 * PI * coordinate k (fst m) / len)) l.
Definition sum_sin (len : R) (k : nat) (l : list mass) : R :=
  total (fun m => snd m * sin (2 * PI * coordinate k (fst m) / len)) l.

(** [c] is a circular mean: the sum points from the origin to [c] (every [c] qualifies if the
    sum vanishes). *)
Definition circular_mean (len : R) (k : nat) (l : list mass) (c : R) : Prop :=
  exists rho, 0 <= rho /\
    sum_cos len k l = rho * cos (2 * PI * c / len) /\
    sum_sin len k l = rho * sin (2 * PI * c / len).

(** The weights with the opposite sign. *)
Definition negated (l : list mass) : list mass := map (fun m => (fst m, - snd m)) l.

(** The sum vanishes: no direction is preferred. *)
Definition balanced (len : R) (k : nat) (l : list mass) : Prop :=
  sum_cos len k l = 0 /\ sum_sin len k l = 0.

(** Every position counts once. *)
Definition unit_mass (positions : list (list R)) : list mass := map (fun p => (p, 1)) positions.

(** All positions displaced by [t]. *)
Definition displaced (t : nat -> R) (p q : list R) : Prop :=
  length q = length p /\ forall k, (k < length p)%nat -> coordinate k q = coordinate k p + t k.

(** Every coordinate displaced by a multiple of the length of the box. *)
Definition wrapped (shape : list R) (p q : list R) : Prop :=
  length q = length p /\
  forall k, (k < length p)%nat -> same_point (side shape k) (coordinate k p) (coordinate k q).

(** [pixels] lists, in some order and without repetition, the pixels of an image that carry
    the label [name]. *)
Definition carries (shape labels : list Z) (name : Z) (pixels : list Z) : Prop :=
  NoDup pixels /\
  forall p, In p pixels <-> pixel shape p /\ nth (Z.to_nat p) labels 0%Z = name.

(** Positions of pixels, as real coordinates. *)
Definition positions_of (shape pixels : list Z) : list (list R) :=
  map (fun p => map IZR (coords shape p)) pixels.
