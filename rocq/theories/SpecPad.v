(** * SpecPad: an image inside a larger one *)

From Coq Require Import ZArith QArith Qcanon List Bool.
From Verif Require Import Base SpecCluster SpecDilate SpecSymmetry Path Ensemble SpecEnsemble SpecMoved.
Import ListNotations.
Open Scope Z_scope.

(** The shape of an image to which [before] pixels are added at the beginning and [after] at
    the end of every axis ([np.pad]). *)
Definition widened (before after shape : list Z) : list Z :=
  map (fun x => fst (fst x) + snd x + snd (fst x)) (combine (combine before after) shape).

Definition margins (before after shape : list Z) : Prop :=
  length before = length shape /\ length after = length shape /\
  Forall (fun b => 0 <= b) before /\ Forall (fun a => 0 <= a) after.

(** Along every axis at least one pixel is added. *)
Definition surrounded (before after : list Z) : Prop := Forall (fun x => 1 <= fst x + snd x) (combine before after).

(** Pixel [p] of the image is pixel [q] of the larger image. *)
Definition placed (before after shape : list Z) (p q : Z) : Prop :=
  pixel shape p /\ pixel (widened before after shape) q /\
  moved false shape (coords shape p) before (coords (widened before after shape) q).

(** Pixel [q] of the larger image is not one of the image. *)
Definition in_margin (before after shape : list Z) (q : Z) : Prop :=
  pixel (widened before after shape) q /\ forall p, ~ placed before after shape p q.

(** Image [b] is image [a] in a margin of zeros. *)
Definition zero_padded (before after shape a b : list Z) : Prop :=
  lenZ a = zprod shape /\ lenZ b = zprod (widened before after shape) /\
  carried (placed before after shape) a b /\ forall q, in_margin before after shape q -> zn b q = 0.

(** Mask [m'] is mask [m] (nothing masked if there is none) in a margin that is masked. *)
Definition mask_padded (before after shape : list Z) (m : option (img Z)) (m' : img Z) : Prop :=
  (forall x, m = Some x -> is_mask shape x) /\ is_mask (widened before after shape) m' /\
  (forall p q, placed before after shape p q -> zn (i_vals m') q = match m with Some x => zn (i_vals x) p | None => 0 end) /\
  (forall q, in_margin before after shape q -> zn (i_vals m') q = 1).

(** The same call on larger images, of which the margin (whatever it holds) is masked; the
    weights of [W2] are zero there. *)
Definition masked_around (before after shape : list Z) (c c' : call) : Prop :=
  let I {A} := @carried_image A (placed before after shape) shape (widened before after shape) in
  let M := mask_padded before after shape in
  match c, c' with
  | CallS2 f g m, CallS2 f' g' (Some m') => I f f' /\ I g g' /\ M (option_map fst m) (fst m') /\ M (option_map snd m) (snd m')
  | CallC2 f g m, CallC2 f' g' (Some m') =>
      carried_image (placed before after shape) shape (widened before after shape) f f' /\
      carried_image (placed before after shape) shape (widened before after shape) g g' /\ M (option_map fst m) (fst m') /\ M (option_map snd m) (snd m')
  | CallW2 w f m, CallW2 w' f' (Some m') => I w w' /\ I f f' /\ M m m' /\ forall q, in_margin before after shape q -> qn (i_vals w') q = 0%Qc
  | CallHH f m, CallHH f' (Some m') => I f f' /\ M m m'
  | _, _ => False
  end.

(** With a displacement the kernel has all those in between. *)
Definition shrinkable (ks kv : list Z) : Prop :=
  forall d d', kernel_offset ks kv d -> Forall2 (fun t t' => 0 <= t' <= t \/ t <= t' <= 0) d d' -> kernel_offset ks kv d'.
