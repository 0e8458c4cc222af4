(** * SpecLinealMoved: calls of the statistics along paths, on images moved as a whole *)

From Coq Require Import ZArith QArith Qcanon List Bool.
From Verif Require Import Base SpecCluster SpecSymmetry Path Ensemble SpecEnsemble SpecMoved.
Import ListNotations.
Open Scope Z_scope.

(** The same call of [L] or [W2c] with every image and the mask moved by [T]. *)
Definition carried_walk (T : Z -> Z -> Prop) (shape shape' : list Z) (c c' : call) : Prop :=
  match c, c' with
  | CallL f mode, CallL f' mode' => carried_image T shape shape' f f' /\ mode' = mode
  | CallW2c cl ce f m mode, CallW2c cl' ce' f' m' mode' =>
      carried_image T shape shape' cl cl' /\ carried_image T shape shape' ce ce' /\ carried_image T shape shape' f f' /\
      carried_option (carried_mask T shape shape') m m' /\ mode' = mode
  | _, _ => False
  end.

(** A region of interest for which the call is defined (C40, C42). *)
Definition walks_in (roi : list Z) (c : call) : Prop :=
  match c with
  | CallL _ mode => walkable mode roi
  | CallW2c _ _ _ _ mode => walkable mode roi /\ even_sided roi
  | _ => False
  end.

Definition goes_by (mode : path_mode) (c : call) : Prop :=
  match c with
  | CallL _ mode' | CallW2c _ _ _ _ mode' => mode' = mode
  | _ => False
  end.

(** The region of interest is odd along the axes that are flipped. *)
Fixpoint odd_along (which : list bool) (roi : list Z) : Prop :=
  match which, roi with
  | w :: which', k :: roi' => (w = true -> Z.odd k = true) /\ odd_along which' roi'
  | _, _ => True
  end.
