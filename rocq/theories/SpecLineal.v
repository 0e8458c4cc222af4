(** * SpecLineal: stretches of a one-dimensional image *)

From Coq Require Import ZArith List Bool.
From Verif Require Import Base SpecCluster Path.
Import ListNotations.
Open Scope Z_scope.

(** Position [x] of an image of [n] pixels is in the phase: not zero.  A periodic image is
    repeated, beyond any other image there is nothing. *)
Definition open_at (per : bool) (n : Z) (f : list Z) (x : Z) : bool :=
  if per then negb (zn f (x mod n) =? 0) else (0 <=? x) && (x <? n) && negb (zn f x =? 0).

(** All positions from [p] to [p + t], both included, are in the phase. *)
Definition stretch (per : bool) (n : Z) (f : list Z) (t p : Z) : bool :=
  forallb (open_at per n f) (zrange (Z.min p (p + t)) (Z.max p (p + t) + 1)).

(** The sizes for which the paths are known to visit the pixels they should. *)
Definition coverable (mode : path_mode) (roi : list Z) : Prop :=
  match mode with
  | Bresenham => Forall (fun n => n <= 2 ^ 30) roi
  | _ => Forall (fun n => n <= 1415 /\ n <> 2) roi
  end.
