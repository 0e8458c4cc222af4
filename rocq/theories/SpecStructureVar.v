(** * SpecStructureVar: the spread of a list of numbers *)

From Coq Require Import ZArith List Reals.
From Verif Require Import Base Structure SpecStructure StructureVar.
Import ListNotations.

(** The unbiased variance: the sum of squared deviations from the average, divided by one less
    than their number. *)
Definition spread {A} (f : A -> R) (l : list A) : R :=
  (fold_right Rplus 0 (map (fun x => (f x - average f l) ^ 2) l) / (INR (length l) - 1))%R.

(** A structure that has no sample yet, whose shape may have been given already. *)
Definition vfresh (cv : bool) (shape : list Z) (start : option vstat) : Prop :=
  start = None \/ exists st, vallocate cv shape = Ok st /\ start = Some st.
