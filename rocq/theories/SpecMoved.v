(** * SpecMoved: calls of the statistics on images moved as a whole *)

From Coq Require Import ZArith QArith Qcanon List Bool.
From Verif Require Import Base SpecCluster SpecSymmetry Ensemble SpecEnsemble.
Import ListNotations.
Open Scope Z_scope.

(** Image [f'] (of shape [shape']) is image [f] (of shape [shape]) moved by [T]. *)
Definition carried_image {A} (T : Z -> Z -> Prop) (shape shape' : list Z) (f f' : img A) : Prop :=
  is_image shape f /\ is_image shape' f' /\ carried T (i_vals f) (i_vals f').

Definition carried_mask (T : Z -> Z -> Prop) (shape shape' : list Z) (m m' : img Z) : Prop :=
  is_mask shape m /\ is_mask shape' m' /\ carried T (i_vals m) (i_vals m').

Definition carried_option {A} (R : A -> A -> Prop) (m m' : option A) : Prop :=
  match m, m' with
  | None, None => True
  | Some x, Some x' => R x x'
  | _, _ => False
  end.

(** The same two-point statistic ([S2], [C2], [W2] or [heightheight]) with every image and
    every mask moved by [T]. *)
Definition carried_call (T : Z -> Z -> Prop) (shape shape' : list Z) (c c' : call) : Prop :=
  let I {A} := @carried_image A T shape shape' in
  let M := carried_mask T shape shape' in
  let M2 x x' := M (fst x) (fst x') /\ M (snd x) (snd x') in
  match c, c' with
  | CallS2 f g m, CallS2 f' g' m' => I f f' /\ I g g' /\ carried_option M2 m m'
  | CallC2 f g m, CallC2 f' g' m' => carried_image T shape shape' f f' /\ carried_image T shape shape' g g' /\ carried_option M2 m m'
  | CallW2 w f m, CallW2 w' f' m' => I w w' /\ I f f' /\ carried_option M m m'
  | CallHH f m, CallHH f' m' => I f f' /\ carried_option M m m'
  | _, _ => False
  end.

(** No masks. *)
Definition no_mask (c : call) : Prop :=
  match c with
  | CallS2 _ _ None | CallC2 _ _ None | CallW2 _ _ None | CallHH _ None => True
  | _ => False
  end.

(** An offset with the components along the flipped axes reversed. *)
Fixpoint flipped_offset (which : list bool) (d : list Z) : list Z :=
  match which, d with
  | w :: which', t :: d' => (if w then - t else t) :: flipped_offset which' d'
  | _, _ => d
  end.

(** All that is measured at element [r] of one ensemble and [r'] of another is the same. *)
Definition same_at (e : ens) (r : Z) (e' : ens) (r' : Z) : Prop :=
  first_at e' r' = first_at e r /\ second_at e' r' = second_at e r /\ norm_at e' r' = norm_at e r /\
  result_at e' r' = result_at e r.
