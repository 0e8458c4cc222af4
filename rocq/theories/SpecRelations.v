(** * SpecRelations: images and offsets used in the relations between statistics *)

From Coq Require Import ZArith QArith Qcanon List Bool.
From Verif Require Import Base Ensemble SpecEnsemble SpecAlgebra.
Import ListNotations.
Open Scope Z_scope.

(** Black and white exchanged. *)
Definition complement (f : img Qc) : img Qc := each (fun x => 1 - x)%Qc f.

(** The sum of two offsets. *)
Definition plus_offset (d d' : list Z) : list Z := map (fun ab => fst ab + snd ab) (combine d d').

(** The autocorrelation of every image of a list. *)
Definition autocorrelations (l : list (img Qc)) : list call := map (fun f => CallS2 f f None) l.
