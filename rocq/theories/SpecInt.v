(** * SpecInt: values that an [int] of 32 bits can hold *)

From Coq Require Import ZArith List.
Import ListNotations.
Open Scope Z_scope.

Definition is_int (z : Z) : Prop := - 2 ^ 31 <= z < 2 ^ 31.

(** A circle whose bounding box has coordinates that are [int]s, with a radius for which the
    squares in the code are exact. *)
Definition int_circle (x y r : Z) : Prop :=
  - 2 ^ 31 < r <= 2 ^ 26 /\
  (0 <= r -> is_int (x - r) /\ is_int (x + r) /\ is_int (y - r) /\ is_int (y + r)).
