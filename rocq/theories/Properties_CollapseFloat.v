(** * Rounding and the centers of the documented use of W2c (C133)

    [collapse] has real numbers, [fcollapse] IEEE 754 numbers; vocabulary in SpecCollapseFloat.v. *)

From Coq Require Import ZArith Reals List.
From Flocq Require Import Core BinarySingleNaN.
From Verif Require Import Base Center SpecCenter CenterFloat SpecCenterFloat CenterFloatBox Collapse SpecCollapse CollapseFloat SpecCollapseFloat CollapseFloatTop CollapseFloatCase.
Import ListNotations.
Open Scope Z_scope.

(** Not periodic: the pixels of the centers are those of exact arithmetic, in whatever order sums
    are added. *)
Theorem C133_not_periodic : forall T asrt shape labels, sums T -> shape <> [] -> Forall (fun n => 1 <= n) shape -> lenZ labels = zprod shape ->
  (forall n, In n shape -> zprod shape * n <= 2 ^ 51) -> fcollapse T asrt shape labels false = collapse asrt shape labels false.
Proof. exact not_periodic_same. Qed.
Print Assumptions C133_not_periodic.

(** Periodic: the image of centers never fails to be made, and has no labels but those of the
    image. *)
Theorem C133_made : forall T asrt shape labels, sums T -> precise T -> shape <> [] -> Forall (fun n => 1 <= n <= 2 ^ 40) shape -> lenZ labels = zprod shape ->
  zprod shape <= 2 ^ 40 ->
  exists ce, fcollapse T asrt shape labels true = Ok ce /\ lenZ ce = zprod shape /\
    forall p, 0 <= p < zprod shape -> zn ce p = 0 \/ named shape labels (zn ce p).
Proof. exact periodic_made. Qed.
Print Assumptions C133_made.

(** ... and is that of exact arithmetic if no center is next to the middle between two pixels or
    to an end of an axis, or is that of pixels that do not agree on a direction. *)
Theorem C133_periodic_partial : forall T asrt shape labels, sums T -> precise T -> shape <> [] -> Forall (fun n => 1 <= n <= 2 ^ 40) shape -> lenZ labels = zprod shape ->
  zprod shape <= 2 ^ 40 -> (forall v, named shape labels v -> steady shape labels v) ->
  fcollapse T asrt shape labels true = collapse asrt shape labels true.
Proof. exact periodic_same. Qed.
Print Assumptions C133_periodic_partial.

(** Else not, not even if all functions are correctly rounded: the pixels 7, 0 and 1 of eight have
    their center in pixel 0, and rounding puts it on pixel 7. *)
Theorem C133_periodic_refuted : forall T asrt, sums T -> correctly_rounded T ->
  collapse asrt [8] [1; 1; 0; 0; 0; 0; 0; 1] true = Ok [1; 0; 0; 0; 0; 0; 0; 0] /\
  fcollapse T asrt [8] [1; 1; 0; 0; 0; 0; 0; 1] true = Ok [0; 0; 0; 0; 0; 0; 0; 1].
Proof. exact moved_by_rounding. Qed.
Print Assumptions C133_periodic_refuted.

Example C133_case : forall asrt, sums exact_trig /\ precise exact_trig /\ correctly_rounded exact_trig /\
  (forall v, named [4] [0; 1; 1; 1] v -> steady [4] [0; 1; 1; 1] v) /\ named [4] [0; 1; 1; 1] 1 /\
  fcollapse exact_trig asrt [4] [0; 1; 1; 1] true = Ok [0; 0; 1; 0] /\ collapse asrt [4] [0; 1; 1; 1] true = Ok [0; 0; 1; 0] /\
  fcollapse exact_trig asrt [6] [0; 1; 1; 1; 0; 2] false = Ok [0; 0; 1; 0; 0; 2].
Proof. exact float_case. Qed.
