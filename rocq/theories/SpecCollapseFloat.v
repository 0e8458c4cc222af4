(** * SpecCollapseFloat: centers that rounding cannot take to another pixel (C133) *)

From Coq Require Import ZArith Reals List.
From Flocq Require Import Core.
From Verif Require Import Base Center SpecCenter SpecCenterFloat SpecCollapse.
Import ListNotations.
Open Scope R_scope.

(** By how much rounding moves the circular mean of [pixels] along axis [k] at most (C105). *)
Definition drift (shape pixels : list Z) (k : nat) : R :=
  let len := IZR (nth k shape 0%Z) in
  len * ((1 + INR (length pixels)) * bpow radix2 (-46) / concentration len k (unit_mass (positions_of shape pixels))).

(** [c] is more than [d] away from all points halfway between two pixels, and from the ends of
    the axis. *)
Definition unambiguous (n : Z) (d c : R) : Prop :=
  2 * d < c < IZR n - d /\ forall m : Z, d < Rabs (c - (IZR m + / 2)).

(** The centers of label [v] are: its pixels agree on a direction, and the center is away from
    these points, along every axis. *)
Definition steady (shape labels : list Z) (v : Z) : Prop :=
  forall pixels k, carries shape labels v pixels -> (k < length shape)%nat ->
    4 * ((1 + INR (length pixels)) * bpow radix2 (-46)) <=
      concentration (IZR (nth k shape 0%Z)) k (unit_mass (positions_of shape pixels)) /\
    exists c, center_along true shape labels v k c /\ unambiguous (nth k shape 0%Z) (drift shape pixels k) c.
