(** * SpecLabellerMoved: the same calls of a labeller on a moved image

    Independent of how the labeller works.  [T p p'] says that pixel [p] of the one image is
    pixel [p'] of the other. *)

From Coq Require Import ZArith List.
From Verif Require Import Base Cluster SpecCluster.
Import ListNotations.
Open Scope Z_scope.

(** The same call, every pixel moved by [T], in the same order.  An image is left out: it is
    read in row-major order, which a move does not keep. *)
Definition carried_op (T : Z -> Z -> Prop) (o o' : op) : Prop :=
  match o, o' with
  | AddPoints l, AddPoints l' => Forall2 T l l'
  | AddSequence l, AddSequence l' => Forall2 T l l'
  | Prune, Prune => True
  | Reset, Reset => True
  | _, _ => False
  end.

(** [T] pairs off the pixels of the two images. *)
Definition one_to_one (shape shape' : list Z) (T : Z -> Z -> Prop) : Prop :=
  (forall p p', T p p' -> pixel shape p /\ pixel shape' p') /\
  (forall p, pixel shape p -> exists p', T p p') /\
  (forall p', pixel shape' p' -> exists p, T p p') /\
  (forall p p' p'', T p p' -> T p p'' -> p' = p'') /\
  (forall p q p', T p p' -> T q p' -> p = q).

(** Two different pixels are adjacent exactly when they are after the move. *)
Definition keeps_adjacent (T adj adj' : Z -> Z -> Prop) : Prop :=
  forall p q p' q', T p p' -> T q q' -> p <> q -> (adj p q <-> adj' p' q').
