(** * SpecSafe: which calls of an ensemble are well formed, and which are meant to be accepted (C132) *)

From Coq Require Import ZArith Qcanon List.
From Verif Require Import Base Path Ensemble EnsemblePy SpecDilate SpecEnsemble.
Import ListNotations.
Open Scope Z_scope.

(** An array as any caller has it: as many values as its shape says, no empty axis. *)
Definition whole {A} (f : img A) : Prop := lenZ (i_vals f) = zprod (i_shape f) /\ Forall (fun n => 1 <= n) (i_shape f).

(** The masks of a call, if any. *)
Definition masks (c : call) : list (img Z) :=
  match c with
  | MeanMasked _ m => [m]
  | CallS2 _ _ (Some (a, b)) | CallC2 _ _ (Some (a, b)) => [a; b]
  | CallW2 _ _ (Some m) | CallW2c _ _ _ (Some m) _ | CallHH _ (Some m) => [m]
  | _ => []
  end.

(** All arrays of a call are such arrays. *)
Definition whole_call (c : call) : Prop :=
  Forall whole (masks c) /\
  match c with
  | Mean f | MeanMasked f _ | CallHH f _ => whole f
  | CallS2 f g _ | CallW2 f g _ => whole f /\ whole g
  | CallC2 f g _ => whole f /\ whole g
  | CallW2c cl ce f _ _ => whole cl /\ whole ce /\ whole f
  | CallL f _ => whole f
  end.

(** The shape of the image of a call, and of everything else that is passed with it. *)
Definition image_shape (c : call) : list Z :=
  match c with
  | Mean f | MeanMasked f _ | CallHH f _ | CallS2 f _ _ | CallW2 f _ _ | CallW2c _ _ f _ _ => i_shape f
  | CallC2 f _ _ | CallL f _ => i_shape f
  end.
Definition other_shapes (c : call) : list (list Z) :=
  match c with
  | CallS2 _ g _ | CallW2 _ g _ => [i_shape g]
  | CallC2 _ g _ => [i_shape g]
  | CallW2c cl ce _ _ _ => [i_shape cl; i_shape ce]
  | _ => []
  end ++ map i_shape (masks c).

(** Everything has the shape of the image, which has as many axes as the region of interest ([mean]
    takes any image, for a region of interest of one pixel). *)
Definition same_shapes (c : call) : Prop := forall s, In s (other_shapes c) -> s = image_shape c.
Definition same_rank (roi : list Z) (c : call) : Prop := stat_of c = S_mean \/ length (image_shape c) = length roi.
Definition one_pixel (roi : list Z) (c : call) : Prop := stat_of c = S_mean -> Forall (fun n => n = 1) roi.
(** Masks are made of 0 and 1. *)
Definition zero_one (c : call) : Prop := forall m, In m (masks c) -> forall x, In x (i_vals m) -> x = 0 \/ x = 1.
Definition proper (roi : list Z) (c : call) : Prop := same_shapes c /\ same_rank roi c /\ one_pixel roi c /\ zero_one c.

(** The regions of interest a statistic works for: half of it fits a periodic image; the paths of
    the mode are defined; C42 for [W2c]. *)
Definition usable (per : bool) (roi : list Z) (c : call) : Prop :=
  (stat_of c <> S_mean -> per = true -> half_fits (image_shape c) roi) /\
  match c with
  | CallL _ mode => walkable mode roi
  | CallW2c _ _ _ _ mode => walkable mode roi /\ even_sided roi
  | _ => True
  end.

(** A region of interest: at most three axes, none empty. *)
Definition region (roi : list Z) : Prop := (length roi <= 3)%nat /\ Forall (fun n => 1 <= n < 2 ^ 62) roi.

(** ** The same in Python *)

(** Any NumPy array without an empty axis and with values in the range of [int]. *)
Definition whole_array (a : array) : Prop :=
  lenZ (a_vals a) = zprod (a_shape a) /\ Forall (fun n => 1 <= n) (a_shape a) /\
  forall v, In v (a_vals a) -> (zq (- 2 ^ 31) <= v)%Qc /\ (v < zq (2 ^ 31))%Qc.

(** A call in Python: a method, its arrays and the path mode. *)
Definition py_usable (per : bool) (roi : list Z) (c : method * list array * path_mode) : Prop :=
  let '(m, args, mode) := c in
  (m <> M_mean -> per = true -> forall a, In a args -> half_fits (a_shape a) roi) /\
  (m = M_L \/ m = M_W2c -> walkable mode roi) /\ (m = M_W2c -> even_sided roi).
Definition py_same_shapes (roi : list Z) (c : method * list array * path_mode) : Prop :=
  let '(m, args, mode) := c in
  forall a, In a args -> (forall b, In b args -> a_shape a = a_shape b) /\ (m <> M_mean -> length (a_shape a) = length roi).
