(** * SpecSymmetry: moving an image as a whole

    What [np.roll], [np.flip] and [np.transpose] do, as relations between the pixels of the
    original image and the pixels of the result. *)

From Coq Require Import ZArith List Bool.
From Verif Require Import Base SpecCluster.
Import ListNotations.
Open Scope Z_scope.

(** Rolling by [d]: pixel [p] ends up at [q], positions counted modulo the shape. *)
Definition rolls (d shape : list Z) (p q : Z) : Prop :=
  pixel shape p /\ pixel shape q /\ moved true shape (coords shape p) d (coords shape q).

(** Flipping the axes marked [true]. *)
Fixpoint flipped (which : list bool) (shape a b : list Z) : Prop :=
  match which, shape, a, b with
  | [], [], [], [] => True
  | w :: which', n :: shape', x :: a', y :: b' =>
      y = (if w then n - 1 - x else x) /\ flipped which' shape' a' b'
  | _, _, _, _ => False
  end.

Definition flips (which : list bool) (shape : list Z) (p q : Z) : Prop :=
  pixel shape p /\ pixel shape q /\ flipped which shape (coords shape p) (coords shape q).

(** Reversing the order of the axes: the result has shape [rev shape]. *)
Definition transposes (shape : list Z) (p q : Z) : Prop :=
  pixel shape p /\ pixel (rev shape) q /\ coords (rev shape) q = rev (coords shape p).

(** Image [b] is image [a] with every pixel [p] moved to the [q] given by [T]. *)
Definition carried {A} (T : Z -> Z -> Prop) (a b : list A) : Prop :=
  forall p q, T p q -> nth_error b (Z.to_nat q) = nth_error a (Z.to_nat p).
