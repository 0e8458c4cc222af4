(** * SpecW2cSlide: specification of C137 *)

From Coq Require Import ZArith List.
Import ListNotations.
Open Scope Z_scope.

(** How far the results of [W2c] are from their place, counted in elements of the flattened
    result: the half size of the second axis minus that of the third. *)
Definition slide (roi : list Z) : Z :=
  match roi with
  | [_; k1; k2] => if k2 =? 1 then 0 else (k1 - 1) / 2 - (k2 - 1) / 2
  | _ => 0
  end.
