(** * SpecDilateLaws: kernels of odd length *)

From Coq Require Import ZArith List Bool.
From Verif Require Import Base.
Import ListNotations.
Open Scope Z_scope.

(** The kernel has an odd length along the axes marked [true] (a middle pixel). *)
Definition odd_on (which : list bool) (ks : list Z) : Prop := Forall2 (fun w n => w = true -> n mod 2 = 1) which ks.

(** All axes. *)
Definition every_axis (ks : list Z) : list bool := map (fun _ => true) ks.
