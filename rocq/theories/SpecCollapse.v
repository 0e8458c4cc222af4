(** * SpecCollapse: vocabulary of the statements about centers of labels as pixels *)

From Coq Require Import ZArith List Reals QArith Qcanon.
From Verif Require Import Base SpecCluster Center SpecCenter SpecEnsemble.
Import ListNotations.
Open Scope Z_scope.

(** Some pixel carries the label [v]. *)
Definition occurs (shape labels : list Z) (v : Z) : Prop := exists p, pixel shape p /\ zn labels p = v.

(** ... and so does another pixel carry a smaller one. *)
Definition named (shape labels : list Z) (v : Z) : Prop :=
  occurs shape labels v /\ exists u, occurs shape labels u /\ u < v.

(** [z] is, of the pixels [0 .. n-1] of an axis, the one closest to [c]; halfway between two the
    even one. *)
Definition closest (n : Z) (c : R) (z : Z) : Prop :=
  0 <= z < n /\ forall y, 0 <= y < n -> y <> z ->
    (Rabs (c - IZR z) < Rabs (c - IZR y))%R \/ (Rabs (c - IZR z) = Rabs (c - IZR y) /\ Z.even z = true)%R.

(** The center of label [v] along axis [k] is [c]. *)
Definition center_along (per : bool) (shape labels : list Z) (v : Z) (k : nat) (c : R) : Prop :=
  forall pixels, carries shape labels v pixels ->
    exists row, center (map IZR shape) (positions_of shape pixels) per = Ok row /\ at_axis row k c.

(** Pixel [p] is, along every axis, closest to the center of label [v]. *)
Definition centre_pixel (per : bool) (shape labels : list Z) (v p : Z) : Prop :=
  pixel shape p /\ forall k, (k < length shape)%nat ->
    exists c, center_along per shape labels v k c /\ closest (nth k shape 0) c (nth k (coords shape p) 0).

(** The same without real numbers, for an image that is not periodic: the mean of a coordinate
    is its sum over the pixels of the label divided by their number. *)
Definition having (shape labels : list Z) (v : Z) : list Z := filter (fun p => zn labels p =? v) (pixels shape).
Definition sum_along (shape labels : list Z) (v : Z) (k : nat) : Z :=
  fold_right (fun p s => nth k (coords shape p) 0 + s) 0 (having shape labels v).
Definition mean_pixel (shape labels : list Z) (v p : Z) : Prop :=
  pixel shape p /\ forall k, (k < length shape)%nat ->
    let n := lenZ (having shape labels v) in
    let d := 2 * Z.abs (n * nth k (coords shape p) 0 - sum_along shape labels v k) in
    d < n \/ (d = n /\ Z.even (nth k (coords shape p) 0) = true).

(** The step of a path that leaves [x]. *)
Definition leaving (x : list Z) (paths : list (list (list Z))) : list (list Z * list Z) :=
  filter (fun st => same_offset x (fst st)) (steps paths).

(** Label [v] is one of those that are given a center, the pixel of its center belongs to it, and
    no larger label has its center there. *)
Definition counts (per : bool) (shape labels : list Z) (v : Z) : Prop :=
  v <> 0 /\ named shape labels v /\ exists p, centre_pixel per shape labels v p /\ zn labels p = v /\
    forall w, named shape labels w -> centre_pixel per shape labels w p -> w <= v.

(** What [W2c] finds at element [r] when it starts from the pixels [cs]: over all steps of the
    paths that leave the offset of [r], and all starting points. *)
Definition collected (per : bool) (roi shape : list Z) (paths : list (list (list Z))) (fm : list Z) (cs : list Z) (V : Z -> list Z -> Qc) (r : Z) : Qc :=
  sum_over (leaving (offset (three roi) r) paths) (fun st =>
    sum_over cs (fun p => if in_phase per (three shape) fm p (snd st) then 0%Qc else V p (snd st))).
