(** * SpecLabels: vocabulary of the statements about label utilities.
    Independent of the model (only [zn], [lenZ] of Base). *)

From Coq Require Import ZArith List.
From Verif Require Import Base.
Import ListNotations.
Open Scope Z_scope.

(** [i] is the first position at which [a] has the value [k]. *)
Definition first_at (a : list Z) (k : Z) (i : Z) : Prop :=
  0 <= i < lenZ a /\ zn a i = k /\ forall j, 0 <= j < i -> zn a j <> k.

(** A two-column table as the flat row-major data of an [n] by 2 array. *)
Fixpoint table (rows : list (Z * Z)) : list Z :=
  match rows with
  | [] => []
  | (a, b) :: t => a :: b :: table t
  end.

(** [v] is the second entry of the first row of the table that starts with [k]. *)
Definition first_row (rows : list (Z * Z)) (k v : Z) : Prop :=
  exists before after, rows = before ++ (k, v) :: after /\ forall w, ~ In (k, w) before.

(** Number of pixels of [l] with value [k]. *)
Fixpoint occurrences (l : list Z) (k : Z) : Z :=
  match l with
  | [] => 0
  | x :: t => (if x =? k then 1 else 0) + occurrences t k
  end.
