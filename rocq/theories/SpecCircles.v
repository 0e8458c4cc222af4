(** * SpecCircles: what a drawing of circles is *)

From Coq Require Import ZArith List Reals.
From Verif Require Import Base SpecCluster Circles.
Import ListNotations.
Open Scope Z_scope.

(** Circle number [i] of the lists of centres and radii. *)
Definition circle (row col r : list Z) (i x y rad : Z) : Prop :=
  0 <= i < lenZ row /\ x = zn row i /\ y = zn col i /\ rad = zn r i.

(** The displacement ([a], [b]) has a length of at most [rad - 1]. *)
Definition within (rad a b : Z) : Prop := 1 <= rad /\ a * a + b * b <= (rad - 1) * (rad - 1).

(** The pixel at (u, v) of an [n] by [m] image is covered: it is the position displaced from
    the centre of some circle by no more than its radius minus one; positions are taken modulo
    the shape if the image is periodic. *)
Definition covered (per : bool) (n m : Z) (row col r : list Z) (u v : Z) : Prop :=
  exists i x y rad a b, circle row col r i x y rad /\ within rad a b /\
    moved per [n; m] [x; y] [a; b] [u; v].

(** [x] is within [h] of [g]: in the half-open range a random integer below [2 h] minus [h]
    takes. *)
Definition about (h g x : Z) : Prop := g - h <= x < g + h.

(** Circles on a regular grid of [n / 20] by [m / 20], moved by less than half the spacing. *)
Definition on_grid (n m : Z) (row col : list Z) : Prop :=
  lenZ row = (n / 20) * (m / 20) /\ lenZ col = (n / 20) * (m / 20) /\
  forall i j, 0 <= i < n / 20 -> 0 <= j < m / 20 ->
    about (n / (2 * (n / 20))) (i * n / (n / 20)) (zn row (i * (m / 20) + j)) /\
    about (m / (2 * (m / 20))) (j * m / (m / 20)) (zn col (i * (m / 20) + j)).

(** What the generator promises of a draw: integers below the (even) bound asked for and a
    number in [0, 1). *)
Definition valid_draw (n m : Z) (w : draw) : Prop :=
  0 <= w_row w < 2 * (n / (2 * (n / 20))) /\ 0 <= w_col w < 2 * (m / (2 * (m / 20))) /\
  (0 <= w_rad w < 1)%R.
