(** * Properties_CenterFloat: C105, C106 ([center], [center_of_mass], [labels_centers],
      [labels_centers_of_mass] with IEEE 754 numbers)

    [sums T]: [xt::mean] and [xt::average] add in some order.  [precise T]: [cos], [sin] and
    [atan2] are right up to a few units in the last place.  [correctly_rounded T]: they are
    correctly rounded (SpecCenterFloat).  Exact arithmetic: Center.v, C47-C49, C57, C58. *)

From Coq Require Import ZArith Reals List Bool Lia Lra.
From Flocq Require Import Core BinarySingleNaN.
From Verif Require Import Base Cluster SpecCluster Center SpecCenter Double CirclesFloat CenterFloat SpecDouble SpecCenterFloat
  CenterFloatTop CenterFloatBox CenterFloatCase.
Import SpecCenter ListNotations.
Open Scope R_scope.

(** ** C105 *)

(** Not periodic: the mean of whatever positions, up to a few roundings per position; ... *)
Theorem C105_mean : forall T shape ps k M, sums T -> ps <> [] -> Forall (finite_position shape) ps ->
  (k < length shape)%nat -> (lenZ ps <= 2 ^ 50)%Z -> bpow radix2 (-1000) <= M <= bpow radix2 800 ->
  (forall p, In p ps -> Rabs (coordinate k (real_position p)) <= M) ->
  exists r c, fcenter T shape ps false = Ok r /\ at_faxis r k c /\
    Rabs (B2R c - total (coordinate k) (map real_position ps) / INR (length ps)) <= (INR (length ps) + 2) * bpow radix2 (-52) * M.
Proof. exact mean_real. Qed.
Print Assumptions C105_mean.

(** ... of positions that are integers, the mean correctly rounded, which is among them. *)
Theorem C105_mean_of_integers : forall T shape (ps : list (list Z)) k M, sums T -> ps <> [] ->
  (forall p, In p ps -> length p = length shape) -> (k < length shape)%nat ->
  (forall p, In p ps -> (Z.abs (nth k p 0%Z) <= M)%Z) -> (lenZ ps * M <= 2 ^ 53)%Z -> (lenZ ps <= 2 ^ 53)%Z ->
  exists r c, fcenter T shape (map (map dz) ps) false = Ok r /\ at_faxis r k c /\
    nearest_double (total (fun p => IZR (nth k p 0%Z)) ps / INR (length ps)) c /\
    (forall a b, (forall p, In p ps -> (a <= nth k p 0 <= b)%Z) -> IZR a <= B2R c <= IZR b).
Proof. exact mean_integers. Qed.
Print Assumptions C105_mean_of_integers.

(** The weighted mean, ... *)
Theorem C105_weighted_mean : forall T shape (l : list (list double * double)) k M, sums T ->
  Forall (fun m => finite_position shape (fst m) /\ weight (snd m)) l -> (k < length shape)%nat ->
  (lenZ l <= 2 ^ 40)%Z -> 0 < total snd (map real_mass l) -> bpow radix2 (-400) <= M <= bpow radix2 400 ->
  (forall m, In m l -> Rabs (coordinate k (real_position (fst m))) <= M) ->
  exists r c, fcenter_of_mass T shape (map fst l) (map snd l) false = Ok r /\ at_faxis r k c /\
    Rabs (B2R c - total (fun m => snd m * coordinate k (fst m)) (map real_mass l) / total snd (map real_mass l))
    <= (3 * INR (length l) + 5) * bpow radix2 (-52) * M.
Proof. exact mass_real. Qed.
Print Assumptions C105_weighted_mean.

(** ... and, periodic, the circular means: the error is the less the more the points agree on
    a direction. *)
Theorem C105_circular_mean : forall T shape ps k len K, sums T -> precise T -> ps <> [] ->
  Forall (finite_position shape) ps -> (lenZ ps <= 2 ^ 40)%Z -> proper_side shape k len ->
  1 <= K <= bpow radix2 20 -> (forall p, In p ps -> Rabs (coordinate k (real_position p)) <= K * len) ->
  let l := unit_mass (map real_position ps) in let b := (K + INR (length ps)) * bpow radix2 (-46) in
  4 * b <= concentration len k l ->
  exists r c, fcenter T shape ps true = Ok r /\ at_faxis r k c /\
    near_circular_mean (len * (b / concentration len k l)) len k l c.
Proof. exact circle_center. Qed.
Print Assumptions C105_circular_mean.

Theorem C105_circular_center_of_mass : forall T shape (l : list (list double * double)) k len K, sums T -> precise T ->
  Forall (fun m => finite_position shape (fst m) /\ weight (snd m)) l -> (lenZ l <= 2 ^ 40)%Z -> proper_side shape k len ->
  1 <= K <= bpow radix2 20 -> (forall m, In m l -> Rabs (coordinate k (real_position (fst m))) <= K * len) ->
  0 < total snd (map real_mass l) ->
  let b := (K + INR (length l)) * bpow radix2 (-46) in
  4 * b <= concentration len k (map real_mass l) ->
  exists r c, fcenter_of_mass T shape (map fst l) (map snd l) true = Ok r /\ at_faxis r k c /\
    near_circular_mean (len * (b / concentration len k (map real_mass l))) len k (map real_mass l) c.
Proof. exact circle_mass. Qed.
Print Assumptions C105_circular_center_of_mass.

(** Labels, not periodic: the mean of the pixels, correctly rounded; zeros for a label without
    pixels. *)
Theorem C105_labels_centers : forall T asrt shape labels names, sums T -> shape <> [] -> Forall (fun n => (0 <= n)%Z) shape ->
  lenZ labels = zprod shape -> (forall n, In n shape -> (zprod shape * n <= 2 ^ 53)%Z) ->
  exists rows, flabels_centers T asrt shape labels names false = Ok rows /\
    Forall2 (fun name row => forall pixels k, carries shape labels name pixels -> (k < length shape)%nat ->
      exists c, at_faxis row k c /\
        (pixels = [] -> B2R c = 0) /\
        (pixels <> [] -> nearest_double (total (coordinate k) (positions_of shape pixels) / INR (length pixels)) c)) names rows.
Proof. exact labels_mean_rounded. Qed.
Print Assumptions C105_labels_centers.

(** Labels, periodic: the circular mean of the pixels up to rounding. *)
Theorem C105_labels_centers_periodic : forall T asrt shape labels names, sums T -> precise T -> shape <> [] ->
  Forall (fun n => (0 <= n)%Z) shape -> lenZ labels = zprod shape -> (zprod shape <= 2 ^ 40)%Z -> Forall (fun n => (n <= 2 ^ 40)%Z) shape ->
  exists rows, flabels_centers T asrt shape labels names true = Ok rows /\
    Forall2 (fun name row => forall pixels k, carries shape labels name pixels -> pixels <> [] -> (k < length shape)%nat ->
      let l := unit_mass (positions_of shape pixels) in let len := IZR (nth k shape 0%Z) in
      let b := (1 + INR (length pixels)) * bpow radix2 (-46) in
      exists c, at_faxis row k c /\ 0 <= B2R c <= len * (1 + bpow radix2 (-51)) /\
        (4 * b <= concentration len k l -> near_circular_mean (len * (b / concentration len k l)) len k l c)) names rows.
Proof. exact labels_circular. Qed.
Print Assumptions C105_labels_centers_periodic.

(** Weighted: the row of a label is [center_of_mass] of its pixels and their weights. *)
Theorem C105_labels_centers_of_mass : forall T asrt shape labels w names per, shape <> [] -> Forall (fun n => (0 <= n)%Z) shape ->
  lenZ labels = zprod shape -> lenZ w = zprod shape ->
  exists rows, flabels_centers_of_mass T asrt shape labels shape w names per = Ok rows /\
    Forall2 (fun name row => exists pixels, carries shape labels name pixels /\
      fcenter_of_mass T (map dz shape) (pixels_of shape pixels) (map (fun p => nth (Z.to_nat p) w dzero) pixels) per = Ok row) names rows.
Proof. exact flabels_mass_rows. Qed.
Print Assumptions C105_labels_centers_of_mass.

Theorem C105_weights_must_match : forall T shape ps w per, shape <> [] -> ps <> [] ->
  (forall p, In p ps -> length p = length shape) -> length w <> length ps -> fcenter_of_mass T shape ps w per = Throw.
Proof. exact fweights_match. Qed.
Print Assumptions C105_weights_must_match.

(** Such libraries exist; the pixels 0 and 1 of four. *)
Example C105_case : sums exact_trig /\ precise exact_trig /\
  carries [4%Z] [1; 1; 0; 0]%Z 1%Z [0; 1]%Z /\
  circular_mean 4 0 (unit_mass (positions_of [4%Z] [0; 1]%Z)) (/ 2) /\
  / 2 <= concentration 4 0 (unit_mass (positions_of [4%Z] [0; 1]%Z)) /\
  exists c m, flabels_centers exact_trig true [4%Z] [1; 1; 0; 0]%Z [1%Z] true = Ok [[c]] /\
    Rabs (B2R c - (/ 2 + IZR m * 4)) <= bpow radix2 (-40).
Proof. exact (conj exact_sums (conj exact_precise (conj case_pixels (conj case_mean (conj case_concentration case_center))))). Qed.

(** ** C106 *)

(** In a periodic box the center is in the box up to rounding, ... *)
Theorem C106_in_the_box_partial : forall T shape ps k len, sums T -> precise T -> Forall (finite_position shape) ps -> (lenZ ps <= 2 ^ 40)%Z ->
  proper_side shape k len -> (forall p, In p ps -> Rabs (coordinate k (real_position p)) <= bpow radix2 20 * len) ->
  exists r c, fcenter T shape ps true = Ok r /\ at_faxis r k c /\ 0 <= B2R c <= len * (1 + bpow radix2 (-51)).
Proof. exact in_the_box. Qed.
Print Assumptions C106_in_the_box_partial.

Theorem C106_mass_in_the_box_partial : forall T shape (l : list (list double * double)) k len, sums T -> precise T ->
  Forall (fun m => finite_position shape (fst m) /\ weight (snd m)) l -> (lenZ l <= 2 ^ 40)%Z -> proper_side shape k len ->
  (forall m, In m l -> Rabs (coordinate k (real_position (fst m))) <= bpow radix2 20 * len) -> 0 < total snd (map real_mass l) ->
  exists r c, fcenter_of_mass T shape (map fst l) (map snd l) true = Ok r /\ at_faxis r k c /\ 0 <= B2R c <= len * (1 + bpow radix2 (-51)).
Proof. exact box_mass. Qed.
Print Assumptions C106_mass_in_the_box_partial.

(** ... but it may lie outside, even if all functions are correctly rounded: that of one
    position at the end of a box of length 115. *)
Theorem C106_in_the_box_refuted : forall T, sums T -> correctly_rounded T ->
  exists c, fcenter T [dz 115] [[dz 115]] true = Ok [c] /\ is_finite c = true /\ 115 < B2R c.
Proof. exact outside. Qed.
Print Assumptions C106_in_the_box_refuted.

Example C106_case : sums exact_trig /\ precise exact_trig /\ correctly_rounded exact_trig.
Proof. exact (conj exact_sums (conj exact_precise exact_correctly_rounded)). Qed.
