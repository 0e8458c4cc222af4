(** * SpecAlias: vocabulary of the statements about labels that were read (C135) *)

From Coq Require Import ZArith List.
From Verif Require Import Base Cluster Alias.
Import ListNotations.
Open Scope Z_scope.

(** The calls of methods of the labeller in a program. *)
Fixpoint calls (prog : list pyop) : list op :=
  match prog with
  | [] => []
  | PCall o :: t => o :: calls t
  | _ :: t => calls t
  end.

(** The variables of a program in the order in which they are bound: is it a copy? *)
Fixpoint bound (prog : list pyop) : list bool :=
  match prog with
  | [] => []
  | PRead :: t => false :: bound t
  | PCopy :: t => true :: bound t
  | _ :: t => bound t
  end.

(** The program never writes to labels that it did not copy. *)
Definition careful (prog : list pyop) : Prop :=
  forall v i x, In (PWrite v i x) prog -> nth_error (bound prog) v <> Some false.

(** The current labels of the labeller. *)
Definition now (p : py) (l : list Z) : Prop := exists s, labeller p = Ok s /\ c_label s = l.
