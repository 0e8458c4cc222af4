(** * SpecCenterMirror: positions reflected, on another scale, and axis by axis *)

From Coq Require Import ZArith List Reals.
From Verif Require Import Base Center SpecCenter.
Import ListNotations.
Open Scope R_scope.

(** The point [x] of axis [k] after a reflection of the axes marked [true], each about the
    middle of [0] and [t k]. *)
Definition reflect (which : nat -> bool) (t : nat -> R) (k : nat) (x : R) : R := if which k then t k - x else x.

(** The same weight at the reflected position. *)
Definition reflected_mass (which : nat -> bool) (t : nat -> R) (m m' : mass) : Prop :=
  snd m' = snd m /\ length (fst m') = length (fst m) /\
  forall k, (k < length (fst m))%nat -> coordinate k (fst m') = reflect which t k (coordinate k (fst m)).

(** The same weight at the position measured in units that are [s k] times smaller. *)
Definition scaled_mass (s : nat -> R) (m m' : mass) : Prop :=
  snd m' = snd m /\ length (fst m') = length (fst m) /\
  forall k, (k < length (fst m))%nat -> coordinate k (fst m') = s k * coordinate k (fst m).
Definition scaled_box (s : nat -> R) (shape shape' : list R) : Prop :=
  length shape' = length shape /\ forall k, (k < length shape)%nat -> side shape' k = s k * side shape k.

(** The same weight, and the same coordinate along axis [k] of the one and axis [j] of the
    other. *)
Definition same_along (k j : nat) (m m' : mass) : Prop :=
  snd m' = snd m /\ coordinate j (fst m') = coordinate k (fst m).

(** The labels [a] and [b] of [labels] are together the label [m] of [merged]. *)
Definition merges (labels merged : list Z) (a b m : Z) : Prop :=
  length merged = length labels /\
  forall p, (p < length labels)%nat -> nth p merged 0%Z = m <-> (nth p labels 0%Z = a \/ nth p labels 0%Z = b).

(** The point [x] of axis [k] of an image of which the axes marked [true] are flipped. *)
Definition flip_point (which : list bool) (shape : list Z) (k : nat) (x : R) : R :=
  if nth k which false then IZR (nth k shape 0%Z - 1) - x else x.
