(** * Properties_Center: C47 - C49, C57, C58

    [shape] holds the lengths of the box, a position is its list of coordinates,
    [at_axis r k c]: the result [r] is the number [c] at axis [k].  Real arithmetic. *)

From Coq Require Import ZArith List Bool Reals Lra Lia Permutation.
From Verif Require Import Base SpecCluster Center SpecCenter CenterProofs CenterTop CenterLabels CenterRefute.
Import ListNotations.
Open Scope R_scope.

(** ** C47 *)
Theorem C47_center_is_mean : forall shape ps k, fit shape ps -> ps <> [] -> (k < length shape)%nat ->
  exists r c, center shape ps false = Ok r /\ length r = length shape /\ at_axis r k c /\
    c * INR (length ps) = total (coordinate k) ps /\
    forall lo hi, (forall p, In p ps -> lo <= coordinate k p <= hi) -> lo <= c <= hi.
Proof. exact center_mean. Qed.
Print Assumptions C47_center_is_mean.

Theorem C47_center_of_mass_is_weighted_mean : forall shape (l : list mass) k, fit shape (map fst l) ->
  total snd l <> 0 -> (k < length shape)%nat ->
  exists r c, center_of_mass shape (map fst l) (map snd l) false = Ok r /\ length r = length shape /\
    at_axis r k c /\
    c * total snd l = total (fun m => snd m * coordinate k (fst m)) l /\
    forall lo hi, (forall m, In m l -> 0 <= snd m) ->
      (forall m, In m l -> snd m <> 0 -> lo <= coordinate k (fst m) <= hi) -> lo <= c <= hi.
Proof. exact mass_mean. Qed.
Print Assumptions C47_center_of_mass_is_weighted_mean.

Theorem C47_equal_weights : forall shape ps w per, fit shape ps -> 0 < w ->
  center_of_mass shape ps (repeat w (length ps)) per = center shape ps per.
Proof. exact mass_equal. Qed.
Print Assumptions C47_equal_weights.

Theorem C47_no_position : forall shape ws per,
  center shape [] per = Ok (map (fun _ => Num 0) shape) /\
  center_of_mass shape [] ws per = Ok (map (fun _ => Num 0) shape).
Proof. exact (fun shape ws per => conj (center_none shape per) (mass_none shape ws per)). Qed.
Print Assumptions C47_no_position.

Theorem C47_center_translates : forall shape ps ps' t k, fit shape ps -> ps <> [] ->
  Forall2 (displaced t) ps ps' -> (k < length shape)%nat ->
  exists r r' c c', center shape ps false = Ok r /\ center shape ps' false = Ok r' /\
    at_axis r k c /\ at_axis r' k c' /\ c' = c + t k.
Proof. exact center_translate_mean. Qed.
Print Assumptions C47_center_translates.

Example C47_case : fit [4; 6] [[1; 2]; [3; 5]] /\
  center [4; 6] [[1; 2]; [3; 5]] false = Ok [Num 2; Num (7 / 2)] /\
  center_of_mass [4; 6] [[1; 2]; [3; 5]] [1; 3] false = Ok [Num (5 / 2); Num (17 / 4)].
Proof.
  split; [intros p [<-|[<-|[]]]; reflexivity|]. split; [exact case_mean|exact case_mass].
Qed.

(** ** C48 *)
Theorem C48_center_is_circular_mean : forall shape ps k, fit shape ps -> ps <> [] ->
  (k < length shape)%nat -> 0 < side shape k ->
  exists r c, center shape ps true = Ok r /\ length r = length shape /\
    at_axis r k c /\ 0 <= c < side shape k /\ circular_mean (side shape k) k (unit_mass ps) c.
Proof. exact center_circular. Qed.
Print Assumptions C48_center_is_circular_mean.

Theorem C48_center_of_mass_is_circular_mean : forall shape (l : list mass) k, fit shape (map fst l) ->
  0 < total snd l -> (k < length shape)%nat -> 0 < side shape k ->
  exists r c, center_of_mass shape (map fst l) (map snd l) true = Ok r /\ length r = length shape /\
    at_axis r k c /\ 0 <= c < side shape k /\ circular_mean (side shape k) k l c.
Proof. exact mass_circular. Qed.
Print Assumptions C48_center_of_mass_is_circular_mean.

(** Weights with a negative total: the other end of the box becomes possible. *)
Theorem C48_center_of_mass_negative_total : forall shape (l : list mass) k, fit shape (map fst l) ->
  total snd l < 0 -> (k < length shape)%nat -> 0 < side shape k ->
  exists r c, center_of_mass shape (map fst l) (map snd l) true = Ok r /\ length r = length shape /\
    at_axis r k c /\ 0 <= c <= side shape k /\ circular_mean (side shape k) k (negated l) c.
Proof. exact mass_negative. Qed.
Print Assumptions C48_center_of_mass_negative_total.

(** Weights that cancel: one of four points, or not a number. *)
Theorem C48_weights_that_cancel : forall shape (l : list mass) k, fit shape (map fst l) -> l <> [] ->
  total snd l = 0 -> (k < length shape)%nat -> 0 < side shape k ->
  exists r, center_of_mass shape (map fst l) (map snd l) true = Ok r /\ length r = length shape /\
    let C := sum_cos (side shape k) k l in
    let S := sum_sin (side shape k) k l in
    (0 < C -> 0 < S -> at_axis r k (side shape k / 8)) /\
    (C < 0 -> 0 < S -> at_axis r k (3 * side shape k / 8)) /\
    (C < 0 -> S < 0 -> at_axis r k (5 * side shape k / 8)) /\
    (0 < C -> S < 0 -> at_axis r k (7 * side shape k / 8)) /\
    (C = 0 \/ S = 0 -> nth_error r k = Some NaN).
Proof. exact mass_cancel. Qed.
Print Assumptions C48_weights_that_cancel.

(** There must be one weight per position. *)
Theorem C48_weights_must_match : forall shape ps w per, shape <> [] -> ps <> [] -> fit shape ps -> length w <> length ps ->
  center_of_mass shape ps w per = Throw.
Proof. exact weights_match. Qed.
Print Assumptions C48_weights_must_match.

(** The rule leaves one possible point, unless the positions balance. *)
Theorem C48_circular_mean_is_determined : forall len k (l : list mass) c c', 0 < len -> ~ balanced len k l ->
  circular_mean len k l c -> circular_mean len k l c' -> same_point len c c'.
Proof. exact circular_mean_unique. Qed.
Print Assumptions C48_circular_mean_is_determined.

Theorem C48_single_position : forall shape p k, length p = length shape -> (k < length shape)%nat ->
  0 < side shape k ->
  exists r c, center shape [p] true = Ok r /\ at_axis r k c /\ 0 <= c < side shape k /\
    same_point (side shape k) (coordinate k p) c.
Proof. exact center_single. Qed.
Print Assumptions C48_single_position.

Theorem C48_wrapped_positions : forall shape ps ps', fit shape ps -> Forall2 (wrapped shape) ps ps' ->
  center shape ps true = center shape ps' true.
Proof. exact center_wrapped. Qed.
Print Assumptions C48_wrapped_positions.

Theorem C48_order_is_irrelevant : forall shape ps ps' per, Permutation ps ps' ->
  center shape ps per = center shape ps' per.
Proof. exact center_perm. Qed.
Print Assumptions C48_order_is_irrelevant.

Theorem C48_translation_partial : forall shape ps ps' t k, fit shape ps -> ps <> [] ->
  Forall2 (displaced t) ps ps' -> (k < length shape)%nat -> 0 < side shape k ->
  ~ balanced (side shape k) k (unit_mass ps) ->
  exists r r' c c', center shape ps true = Ok r /\ center shape ps' true = Ok r' /\
    at_axis r k c /\ at_axis r' k c' /\ same_point (side shape k) (c + t k) c'.
Proof. exact center_translate. Qed.
Print Assumptions C48_translation_partial.

(** Two opposite positions have no preferred point; the result is 0 wherever they are. *)
Theorem C48_translation_refuted :
  exists shape ps ps' t r r' c c', fit shape ps /\ ps <> [] /\ Forall2 (displaced t) ps ps' /\
    0 < side shape 0 /\
    center shape ps true = Ok r /\ center shape ps' true = Ok r' /\ at_axis r 0 c /\ at_axis r' 0 c' /\
    ~ same_point (side shape 0) (c + t 0%nat) c'.
Proof. exact translation_balanced. Qed.
Print Assumptions C48_translation_refuted.

Example C48_case : fit [8] [[7]; [1]] /\ 0 < side [8] 0 /\ ~ balanced 8 0 (unit_mass [[7]; [1]]) /\
  center [8] [[7]; [1]] true = Ok [Num 0] /\
  Forall2 (displaced (fun _ => 3)) [[7]; [1]] [[10]; [4]] /\ Forall2 (wrapped [8]) [[7]; [1]] [[-1]; [17]].
Proof.
  split; [intros p [<-|[<-|[]]]; reflexivity|]. split; [unfold side; cbn; lra|].
  split; [exact (proj2 case_wrap)|]. split; [exact (proj1 case_wrap)|]. split.
  - repeat constructor; intros [|k] Hk; cbn in Hk; try lia; unfold coordinate; cbn [nth]; lra.
  - constructor; [|constructor; [|constructor]]; (split; [reflexivity|]); intros [|k] Hk; cbn in Hk; try lia;
      unfold side, coordinate; cbn [nth]; [exists (-1)%Z|exists 2%Z]; lra.
Qed.

Example C48_case_cancel : total snd [([1], 1); ([4], -1)] = 0 /\
  0 < sum_sin 8 0 [([1], 1); ([4], -1)] /\ 0 < sum_cos 8 0 [([1], 1); ([4], -1)].
Proof. exact case_cancel. Qed.

(** ** C49 *)
Theorem C49_labels_centers : forall asrt shape labels names per, shape <> [] ->
  lenZ labels = zprod shape ->
  exists rows, labels_centers asrt shape labels names per = Ok rows /\
    Forall2 (fun name row => forall pixels, carries shape labels name pixels ->
               center (map IZR shape) (positions_of shape pixels) per = Ok row) names rows.
Proof. exact labels_centers_ok. Qed.
Print Assumptions C49_labels_centers.

Theorem C49_labels_centers_of_mass : forall asrt shape labels w names per, shape <> [] ->
  Forall (fun n => (0 <= n)%Z) shape -> lenZ labels = zprod shape -> lenZ w = zprod shape ->
  exists rows, labels_centers_of_mass asrt shape labels shape w names per = Ok rows /\
    Forall2 (fun name row => forall pixels, carries shape labels name pixels ->
               center_of_mass (map IZR shape) (positions_of shape pixels)
                 (map (fun p => nth (Z.to_nat p) w 0) pixels) per = Ok row) names rows.
Proof. exact labels_mass_ok. Qed.
Print Assumptions C49_labels_centers_of_mass.

Theorem C49_illegal_calls_throw : forall shape labels wshape w names per,
  labels_centers true [] labels names per = Throw /\
  (wshape <> shape -> labels_centers_of_mass true shape labels wshape w names per = Throw).
Proof.
  exact (fun shape labels wshape w names per =>
    conj (labels_centers_rank0 labels names per) (labels_mass_shape shape labels wshape w names per)).
Qed.
Print Assumptions C49_illegal_calls_throw.

Example C49_case : carries [2; 3]%Z [5; 0; 5; 7; 5; 0]%Z 5 [0; 2; 4]%Z /\
  positions_of [2; 3]%Z [0; 2; 4]%Z = [[0; 0]; [0; 2]; [1; 1]] /\
  carries [2; 3]%Z [5; 0; 5; 7; 5; 0]%Z 9 [].
Proof.
  split; [|split; [reflexivity|]].
  - split; [repeat constructor; cbn; lia|]. intro p. unfold pixel. split.
    + intros [<-|[<-|[<-|[]]]]; (split; [cbn; lia|reflexivity]).
    + cbn [zprod]. intros [B E]. assert (p = 0 \/ p = 1 \/ p = 2 \/ p = 3 \/ p = 4 \/ p = 5)%Z as P by lia.
      decompose [or] P; subst p; cbn in E; try discriminate; cbn; tauto.
  - split; [constructor|]. intro p. unfold pixel. split; [intros []|].
    cbn [zprod]. intros [B E]. assert (p = 0 \/ p = 1 \/ p = 2 \/ p = 3 \/ p = 4 \/ p = 5)%Z as P by lia.
    decompose [or] P; subst p; cbn in E; discriminate.
Qed.

(** ** C57 *)
Theorem C57_center_inside_the_window : forall shape ps k a b, fit shape ps -> ps <> [] ->
  (k < length shape)%nat ->
  (forall p, In p ps -> a <= coordinate k p <= b) -> b - a < side shape k / 2 ->
  exists r c c', center shape ps true = Ok r /\ at_axis r k c /\
    same_point (side shape k) c c' /\ a <= c' <= b.
Proof. exact center_window. Qed.
Print Assumptions C57_center_inside_the_window.

Theorem C57_center_of_mass_inside_the_window : forall shape (l : list mass) k a b,
  fit shape (map fst l) -> (forall m, In m l -> 0 <= snd m) -> 0 < total snd l ->
  (k < length shape)%nat ->
  (forall m, In m l -> a <= coordinate k (fst m) <= b) -> b - a < side shape k / 2 ->
  exists r c c', center_of_mass shape (map fst l) (map snd l) true = Ok r /\ at_axis r k c /\
    same_point (side shape k) c c' /\ a <= c' <= b.
Proof. exact mass_window. Qed.
Print Assumptions C57_center_of_mass_inside_the_window.

Example C57_case : fit [8] [[7]; [9]] /\ (forall p, In p [[7]; [9]] -> 7 <= coordinate 0 p <= 9) /\
  9 - 7 < side [8] 0 / 2.
Proof.
  split; [intros p [<-|[<-|[]]]; reflexivity|].
  split; [intros p [<-|[<-|[]]]; unfold coordinate; cbn [nth]; lra|unfold side; cbn [nth]; lra].
Qed.

(** ** C58 *)
Theorem C58_weights_scale : forall shape (l : list mass) w per, fit shape (map fst l) -> 0 < w ->
  center_of_mass shape (map fst l) (map (fun m => w * snd m) l) per
  = center_of_mass shape (map fst l) (map snd l) per.
Proof. exact mass_scale. Qed.
Print Assumptions C58_weights_scale.

(** A negative factor: the same mean, and the same point of a periodic box... *)
Theorem C58_negative_factor_mean : forall shape (l : list mass) w, fit shape (map fst l) -> w <> 0 ->
  total snd l <> 0 ->
  center_of_mass shape (map fst l) (map (fun m => w * snd m) l) false
  = center_of_mass shape (map fst l) (map snd l) false.
Proof. exact mass_scale_mean. Qed.
Print Assumptions C58_negative_factor_mean.

Theorem C58_negative_factor_circular : forall shape (l : list mass) w k, fit shape (map fst l) -> w < 0 ->
  0 < total snd l -> (k < length shape)%nat -> 0 < side shape k -> ~ balanced (side shape k) k l ->
  exists r r' c c', center_of_mass shape (map fst l) (map snd l) true = Ok r /\
    center_of_mass shape (map fst l) (map (fun m => w * snd m) l) true = Ok r' /\
    at_axis r k c /\ at_axis r' k c' /\ same_point (side shape k) c c'.
Proof. exact mass_scale_circular. Qed.
Print Assumptions C58_negative_factor_circular.

(** ... but not the same coordinate: 0 becomes the length of the box. *)
Theorem C58_negative_factor_refuted : exists shape ps w, fit shape ps /\ w <> 0 /\
  center_of_mass shape ps (repeat w (length ps)) true <> center shape ps true.
Proof. exact negative_weight. Qed.
Print Assumptions C58_negative_factor_refuted.

Theorem C58_weights_are_repetitions : forall shape (l : list (list R * nat)) per, fit shape (map fst l) ->
  (exists m, In m l /\ snd m <> 0%nat) ->
  center_of_mass shape (map fst l) (map (fun m => INR (snd m)) l) per
  = center shape (flat_map (fun m => repeat (fst m) (snd m)) l) per.
Proof. exact mass_repeat. Qed.
Print Assumptions C58_weights_are_repetitions.

Theorem C58_order_is_irrelevant : forall shape (l l' : list mass) per, fit shape (map fst l) -> Permutation l l' ->
  center_of_mass shape (map fst l) (map snd l) per = center_of_mass shape (map fst l') (map snd l') per.
Proof. exact mass_perm. Qed.
Print Assumptions C58_order_is_irrelevant.

Example C58_case : fit [4; 6] (map fst [([1; 2], 3%nat); ([3; 5], 0%nat)]) /\
  flat_map (fun m : list R * nat => repeat (fst m) (snd m)) [([1; 2], 3%nat); ([3; 5], 0%nat)]
  = [[1; 2]; [1; 2]; [1; 2]].
Proof. split; [intros p [<-|[<-|[]]]; reflexivity|reflexivity]. Qed.
