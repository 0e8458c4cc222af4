(** * SpecThin: axes of one pixel *)

From Coq Require Import ZArith QArith Qcanon List Bool.
From Verif Require Import Base SpecCluster Path Ensemble SpecEnsemble.
Import ListNotations.
Open Scope Z_scope.

(** A shape with an axis of [x] pixels inserted before axis [k] ([np.expand_dims] for one
    pixel). *)
Definition with_axis (k : nat) (x : Z) (shape : list Z) : list Z := firstn k shape ++ x :: skipn k shape.

(** The same pixels in the same order, as an image of another shape. *)
Definition reshaped {A} (shape : list Z) (f : img A) : img A := mkimg shape (i_vals f).

Definition reshaped_call (shape : list Z) (c : call) : call :=
  let R {A} := @reshaped A shape in
  let R2 m := (R (fst m), R (snd m)) in
  match c with
  | CallS2 f g m => CallS2 (R f) (R g) (option_map R2 m)
  | CallC2 f g m => CallC2 (reshaped shape f) (reshaped shape g) (option_map R2 m)
  | CallW2 w f m => CallW2 (R w) (R f) (option_map R m)
  | CallHH f m => CallHH (R f) (option_map R m)
  | CallL f mode => CallL (reshaped shape f) mode
  | CallW2c cl ce f m mode => CallW2c (reshaped shape cl) (reshaped shape ce) (reshaped shape f) (option_map (reshaped shape) m) mode
  | Mean f => Mean (R f)
  | MeanMasked f m => MeanMasked (R f) (reshaped shape m)
  end.

(** A call of [L] or [W2c] on images of this shape, and a mask, if any, of this shape. *)
Definition along_paths (shape : list Z) (c : call) : Prop :=
  match c with
  | CallL f _ => is_image shape f
  | CallW2c cl ce f m _ => is_image shape cl /\ is_image shape ce /\ is_image shape f /\ (forall fm, m = Some fm -> is_mask shape fm)
  | _ => False
  end.
