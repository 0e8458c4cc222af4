(** * SpecPositive: quadratic forms of statistics over places *)

From Coq Require Import ZArith QArith Qcanon List.
From Verif Require Import Base SpecCluster Ensemble SpecEnsemble SpecRelations.
Import ListNotations.
Open Scope Z_scope.

(** Places with a coefficient. *)
Definition weighted : Type := list (Qc * list Z).

(** [el x y] is the pixel of the region of interest whose offset leads from the place [x] to
    the place [y], for all places of [l]. *)
Definition leads (roi : list Z) (l : weighted) (el : list Z -> list Z -> Z) : Prop :=
  (forall cx, In cx l -> length (snd cx) = length roi) /\
  (forall cx dy, In cx l -> In dy l ->
     pixel roi (el (snd cx) (snd dy)) /\ snd dy = plus_offset (snd cx) (offset roi (el (snd cx) (snd dy)))).

(** The sum of [c d s(x, y)] over all pairs of places [x, y] with coefficients [c, d]. *)
Definition form (l : weighted) (el : list Z -> list Z -> Z) (s : Z -> Qc) : Qc :=
  sum_over (list_prod l l) (fun w => fst (fst w) * fst (snd w) * s (el (snd (fst w)) (snd (snd w))))%Qc.

(** The sum of the coefficients. *)
Definition total (l : weighted) : Qc := sum_over l fst.

(** A list of images, of any shapes that are at least half the region of interest. *)
Definition images {A} (roi : list Z) (l : list (img A)) : Prop :=
  l <> [] /\ forall f, In f l -> shapes true roi (i_shape f) /\ is_image (i_shape f) f.

(** Every image is compared with itself. *)
Definition cluster_correlations (l : list (img Z)) : list call := map (fun f => CallC2 f f None) l.
Definition height_calls (l : list (img Qc)) : list call := map (fun f => CallHH f None) l.
