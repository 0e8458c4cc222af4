(** * SpecLabellerPrune: histories that differ in their calls of prune only *)

From Coq Require Import ZArith List Bool.
From Verif Require Import Base Cluster.
Import ListNotations.
Open Scope Z_scope.

Definition is_prune (o : op) : bool := match o with Prune => true | _ => false end.

(** The calls other than [prune]. *)
Definition other_calls (ops : list op) : list op := filter (fun o => negb (is_prune o)) ops.

(** What the calls other than [prune] returned. *)
Fixpoint returned (ops : list op) (outs : list (list Z)) : list (list Z) :=
  match ops, outs with
  | o :: ops', out :: outs' => if is_prune o then returned ops' outs' else out :: returned ops' outs'
  | _, _ => []
  end.
