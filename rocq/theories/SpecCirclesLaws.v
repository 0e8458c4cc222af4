(** * SpecCirclesLaws: drawings of lists of circles (what C102 and C103 are about) *)

From Coq Require Import ZArith List Bool.
From Verif Require Import Base SpecCluster Circles SpecCircles.
Import ListNotations.
Open Scope Z_scope.

(** A circle: row and column of the centre, radius. *)
Record ring := mkring { g_row : Z; g_col : Z; g_rad : Z }.

(** The drawing of these circles. *)
Definition drawn (asrt per : bool) (n m : Z) (l : list ring) : res (list Z) :=
  dummy_circles asrt [n; m] (map g_row l) (map g_col l) (map g_rad l) per.

(** Shapes for which it is defined. *)
Definition drawable (per : bool) (n m : Z) : Prop :=
  0 <= n /\ 0 <= m /\ (per = true -> 0 < n /\ 0 < m).

(** The same centre, and at least as large. *)
Definition larger (c c' : ring) : Prop :=
  g_row c' = g_row c /\ g_col c' = g_col c /\ g_rad c <= g_rad c'.

(** The same circle up to multiples of the shape. *)
Definition same_ring (n m : Z) (c c' : ring) : Prop :=
  g_row c' mod n = g_row c mod n /\ g_col c' mod m = g_col c mod m /\ g_rad c' = g_rad c.

(** Nothing of the circle is outside the image. *)
Definition fits (n m : Z) (c : ring) : Prop :=
  g_rad c - 1 <= g_row c <= n - g_rad c /\ g_rad c - 1 <= g_col c <= m - g_rad c.

(** Circles moved, flipped, and with rows and columns interchanged. *)
Definition move_ring (s t : Z) (c : ring) : ring := mkring (g_row c + s) (g_col c + t) (g_rad c).
Definition flip_ring (f0 f1 : bool) (n m : Z) (c : ring) : ring :=
  mkring (if f0 then n - 1 - g_row c else g_row c) (if f1 then m - 1 - g_col c else g_col c) (g_rad c).
Definition swap_ring (c : ring) : ring := mkring (g_col c) (g_row c) (g_rad c).

(** The pixel [p] is covered by the circle [c]. *)
Definition covers (per : bool) (n m : Z) (c : ring) (p : Z) : Prop :=
  exists a b, within (g_rad c) a b /\ moved per [n; m] [g_row c; g_col c] [a; b] (coords [n; m] p).

(** Two circles touch: they share a pixel, or a pixel of one is next to a pixel of the other. *)
Definition touching (per : bool) (n m : Z) (c c' : ring) : Prop :=
  exists p q, pixel [n; m] p /\ pixel [n; m] q /\ covers per n m c p /\ covers per n m c' q /\
    (p = q \/ face_neighbour per [n; m] p q).

(** A chain of circles of [l], each touching the next. *)
Inductive chain (per : bool) (n m : Z) (l : list ring) : ring -> ring -> Prop :=
| chain_end : forall c, In c l -> chain per n m l c c
| chain_step : forall c c1 c', In c l -> touching per n m c c1 -> chain per n m l c1 c' -> chain per n m l c c'.
