(** * SpecAlgebra: images obtained from others value by value *)

From Coq Require Import ZArith QArith Qcanon List Bool.
From Verif Require Import Base SpecCluster Ensemble SpecEnsemble.
Import ListNotations.
Open Scope Z_scope.

(** Every value replaced by its image under a function. *)
Definition each {A B} (F : A -> B) (f : img A) : img B := mkimg (i_shape f) (map F (i_vals f)).

(** The weighted sum [a f + b g] of two images of the same shape. *)
Definition blend (a b : Qc) (f g : img Qc) : img Qc :=
  mkimg (i_shape f) (map (fun x => a * fst x + b * snd x)%Qc (combine (i_vals f) (i_vals g))).

(** The indicator of the non-zero pixels. *)
Definition indicator (f : img Z) : img Qc := each (fun x => if x =? 0 then 0%Qc else 1%Qc) f.

(** A renaming of labels: one-to-one, and zero stays zero. *)
Definition renaming (F : Z -> Z) : Prop := F 0 = 0 /\ forall x y, F x = F y -> x = y.

(** Masks exchanged. *)
Definition exchanged (m : option (img Z * img Z)) : option (img Z * img Z) :=
  match m with Some (fm, gm) => Some (gm, fm) | None => None end.

(** A pair of masks of this shape, or none. *)
Definition masks_of (shape : list Z) (m : option (img Z * img Z)) : Prop :=
  match m with Some (fm, gm) => is_mask shape fm /\ is_mask shape gm | None => True end.
Definition mask_of (shape : list Z) (m : option (img Z)) : Prop :=
  match m with Some fm => is_mask shape fm | None => True end.

(** No value is negative. *)
Definition nonnegative (w : img Qc) : Prop := forall x, In x (i_vals w) -> (0 <= x)%Qc.

(** The squared differences that a call of [heightheight] takes into account at offset [d]: all
    pairs of which the first pixel is not masked and the second is not either, or is seen
    through the boundary ([seen], SpecEnsemble). *)
Definition height_differences (per : bool) (d : list Z) (c : call) : list Qc :=
  match c with
  | CallHH f None => map (sqdiff (i_vals f)) (pairs per (i_shape f) d)
  | CallHH f (Some m) =>
      map (sqdiff (i_vals f)) (filter (seen (i_shape f) (i_vals m) (i_vals m) d) (pairs per (i_shape f) d))
  | _ => []
  end.

(** A call of [heightheight] with arguments it is meant for. *)
Definition height_call (per : bool) (roi : list Z) (c : call) : Prop :=
  match c with
  | CallHH f m => shapes per roi (i_shape f) /\ is_image (i_shape f) f /\ mask_of (i_shape f) m
  | _ => False
  end.

(** The variance read at roi element [r]. *)
Definition variance_at (e : ens) (r : Z) : option value :=
  match variance e with Ok l => nth_error l (Z.to_nat r) | _ => None end.

(** Both succeed, with related values, or both fail in the same way. *)
Definition same_outcome {A} (R : A -> A -> Prop) (x y : res A) : Prop :=
  match x, y with
  | Ok a, Ok b => R a b
  | Throw, Throw | UB, UB | NoFuel, NoFuel => True
  | _, _ => False
  end.

(** The data an average is read from. *)
Definition same_average (e e' : ens) : Prop := data_first e' = data_first e /\ norm e' = norm e /\ result e' = result e.
