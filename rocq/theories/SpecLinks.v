(** * SpecLinks: the image of one label *)

From Coq Require Import ZArith Qcanon.
From Verif Require Import Base Ensemble SpecEnsemble SpecAlgebra.
Open Scope Z_scope.

(** 1 where the image has the label [v], 0 elsewhere. *)
Definition only (v : Z) (f : img Z) : img Qc := each (fun x => if x =? v then 1%Qc else 0%Qc) f.
