(** * Kernel: model of [kernel::nearest] (GooseEYE.h:55-88) *)

From Coq Require Import ZArith List Bool.
From Verif Require Import Base Cluster.
Import ListNotations.
Open Scope Z_scope.

(** [kernel::nearest] (GooseEYE.h:63-86): shape and flattened values.  A view assignment
    [xt::view(kern, keep(1), all, ...) = 1] sets every entry whose coordinate on that axis
    is 1.  Without assertions a rank above 3 takes the last branch (the views index the
    first three axes), rank 0 has no axis to view. *)
Definition nearest (asrt : bool) (ndim : nat) : res (list Z * list Z) :=
  _ <- assertb asrt (Nat.leb 1 ndim && Nat.leb ndim 3) ;;
  let shape := repeat 3 ndim in
  let pos := map (unravel shape) (zseq 0 (Z.to_nat (zprod shape))) in
  match ndim with
  | O => UB
  | S O => Ok (shape, map (fun _ => 1) pos)
  | S (S O) => Ok (shape, map (fun c => if existsb (Z.eqb 1) c then 1 else 0) pos)
  | _ => Ok (shape, map (fun c => if existsb (Z.eqb 1) (firstn 3 c) then 1 else 0) pos)
  end.
