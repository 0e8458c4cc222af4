(** * SpecCenterMoved: positions with weights, moved *)

From Coq Require Import ZArith List Reals.
From Verif Require Import Base Center SpecCenter.
Import ListNotations.
Open Scope R_scope.

(** The same weight at a position displaced by [t], or by multiples of the box. *)
Definition displaced_mass (t : nat -> R) (m m' : mass) : Prop := snd m' = snd m /\ displaced t (fst m) (fst m').
Definition wrapped_mass (shape : list R) (m m' : mass) : Prop := snd m' = snd m /\ wrapped shape (fst m) (fst m').

(** The positions of pixels with their weights. *)
Definition masses_of (shape : list Z) (w : list R) (pixels : list Z) : list mass :=
  map (fun p => (map IZR (SpecCluster.coords shape p), nth (Z.to_nat p) w 0)) pixels.
