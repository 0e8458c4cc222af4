(** * SpecRoi: calls of the two-point statistics *)

From Coq Require Import ZArith QArith Qcanon List Bool.
From Verif Require Import Base SpecCluster Ensemble SpecEnsemble.
Import ListNotations.
Open Scope Z_scope.

(** A call of [S2], [C2], [W2] or [heightheight] on images of this shape, and masks, if any, of
    this shape. *)
Definition two_point (shape : list Z) (c : call) : Prop :=
  let masks m := forall fm gm, m = Some (fm, gm) -> is_mask shape fm /\ is_mask shape gm in
  let mask m := forall fm, m = Some fm -> is_mask shape fm in
  match c with
  | CallS2 f g m => is_image shape f /\ is_image shape g /\ masks m
  | CallC2 f g m => is_image shape f /\ is_image shape g /\ masks m
  | CallW2 w f m => is_image shape w /\ is_image shape f /\ mask m
  | CallHH f m => is_image shape f /\ mask m
  | _ => False
  end.
