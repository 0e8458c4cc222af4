(** * Properties_CenterMirror: C125

    Centers of reflected, scaled, transposed and merged positions and labels.  Statements only;
    [reflect], [reflected_mass], [scaled_mass], [scaled_box], [same_along], [flip_point],
    [merges] are defined in SpecCenterMirror, [masses_of] in SpecCenterMoved, [balanced],
    [same_point], [carries], ... in SpecCenter, [flips], [transposes], [carried] in
    SpecSymmetry. *)

From Coq Require Import ZArith List Bool Reals Lra Lia.
From Verif Require Import Base SpecCluster SpecSymmetry Center SpecCenter SpecCenterMoved SpecCenterMirror CenterMirror.
Import ListNotations.
Open Scope R_scope.

(** ** C125 *)

(** *** Reflections *)
Theorem C125_center_of_mass_reflects :
  forall shape (l l' : list mass) which t k, fit shape (map fst l) -> total snd l <> 0 -> Forall2 (reflected_mass which t) l l' ->
  (k < length shape)%nat ->
  exists r r' c c', center_of_mass shape (map fst l) (map snd l) false = Ok r /\
    center_of_mass shape (map fst l') (map snd l') false = Ok r' /\
    at_axis r k c /\ at_axis r' k c' /\ c' = reflect which t k c.
Proof. exact mass_reflect_mean. Qed.
Print Assumptions C125_center_of_mass_reflects.

Theorem C125_flipping_a_label_image :
  forall asrt shape which labels labels' name pixels k, good_shape shape -> length which = length shape ->
  lenZ labels = zprod shape -> lenZ labels' = zprod shape -> carried (flips which shape) labels labels' ->
  carries shape labels name pixels -> pixels <> [] -> (k < length shape)%nat ->
  exists r r' c c', labels_centers asrt shape labels [name] false = Ok [r] /\
    labels_centers asrt shape labels' [name] false = Ok [r'] /\
    at_axis r k c /\ at_axis r' k c' /\ c' = flip_point which shape k c.
Proof. exact flip_centers. Qed.
Print Assumptions C125_flipping_a_label_image.

Theorem C125_flipping_labels_and_weights :
  forall asrt shape which labels labels' w w' name pixels k, good_shape shape -> length which = length shape ->
  lenZ labels = zprod shape -> lenZ labels' = zprod shape -> lenZ w = zprod shape -> lenZ w' = zprod shape ->
  carried (flips which shape) labels labels' -> carried (flips which shape) w w' ->
  carries shape labels name pixels -> total snd (masses_of shape w pixels) <> 0 -> (k < length shape)%nat ->
  exists r r' c c', labels_centers_of_mass asrt shape labels shape w [name] false = Ok [r] /\
    labels_centers_of_mass asrt shape labels' shape w' [name] false = Ok [r'] /\
    at_axis r k c /\ at_axis r' k c' /\ c' = flip_point which shape k c.
Proof. exact flip_masses. Qed.
Print Assumptions C125_flipping_labels_and_weights.

(** In a periodic box: unless the positions balance (C48). *)
Theorem C125_periodic_center_of_mass_reflects_partial :
  forall shape (l l' : list mass) which t k, fit shape (map fst l) -> 0 < total snd l -> Forall2 (reflected_mass which t) l l' ->
  (k < length shape)%nat -> 0 < side shape k -> ~ balanced (side shape k) k l ->
  exists r r' c c', center_of_mass shape (map fst l) (map snd l) true = Ok r /\
    center_of_mass shape (map fst l') (map snd l') true = Ok r' /\
    at_axis r k c /\ at_axis r' k c' /\ same_point (side shape k) (reflect which t k c) c'.
Proof. exact mass_reflect. Qed.
Print Assumptions C125_periodic_center_of_mass_reflects_partial.

Theorem C125_flipping_a_periodic_label_image_partial :
  forall asrt shape which labels labels' name pixels k, good_shape shape -> length which = length shape ->
  lenZ labels = zprod shape -> lenZ labels' = zprod shape -> carried (flips which shape) labels labels' ->
  carries shape labels name pixels -> pixels <> [] -> (k < length shape)%nat ->
  ~ balanced (side (map IZR shape) k) k (unit_mass (positions_of shape pixels)) ->
  exists r r' c c', labels_centers asrt shape labels [name] true = Ok [r] /\
    labels_centers asrt shape labels' [name] true = Ok [r'] /\
    at_axis r k c /\ at_axis r' k c' /\ same_point (side (map IZR shape) k) (flip_point which shape k c) c'.
Proof. exact flip_centers_periodic. Qed.
Print Assumptions C125_flipping_a_periodic_label_image_partial.

Theorem C125_flipping_periodic_labels_and_weights_partial :
  forall asrt shape which labels labels' w w' name pixels k, good_shape shape -> length which = length shape ->
  lenZ labels = zprod shape -> lenZ labels' = zprod shape -> lenZ w = zprod shape -> lenZ w' = zprod shape ->
  carried (flips which shape) labels labels' -> carried (flips which shape) w w' ->
  carries shape labels name pixels -> 0 < total snd (masses_of shape w pixels) -> (k < length shape)%nat ->
  ~ balanced (side (map IZR shape) k) k (masses_of shape w pixels) ->
  exists r r' c c', labels_centers_of_mass asrt shape labels shape w [name] true = Ok [r] /\
    labels_centers_of_mass asrt shape labels' shape w' [name] true = Ok [r'] /\
    at_axis r k c /\ at_axis r' k c' /\ same_point (side (map IZR shape) k) (flip_point which shape k c) c'.
Proof. exact flip_masses_periodic. Qed.
Print Assumptions C125_flipping_periodic_labels_and_weights_partial.

(** Two opposite pixels: their center does not flip with the image. *)
Theorem C125_flipping_refuted :
  exists shape which labels labels' name r r' c c', good_shape shape /\ length which = length shape /\
  lenZ labels = zprod shape /\ lenZ labels' = zprod shape /\ carried (flips which shape) labels labels' /\ In name labels /\
  labels_centers true shape labels [name] true = Ok [r] /\ labels_centers true shape labels' [name] true = Ok [r'] /\
  at_axis r 0 c /\ at_axis r' 0 c' /\ ~ same_point (side (map IZR shape) 0) (flip_point which shape 0 c) c'.
Proof. exact flip_balanced. Qed.
Print Assumptions C125_flipping_refuted.

(** *** Axes: no axis influences another, and all are treated alike, whatever the weights, also
    where the result is not a number *)
Theorem C125_axes_are_independent_and_alike :
  forall shape shape' (l l' : list mass) per k j r r', fit shape (map fst l) -> fit shape' (map fst l') ->
  (k < length shape)%nat -> (j < length shape')%nat -> side shape' j = side shape k -> Forall2 (same_along k j) l l' ->
  center_of_mass shape (map fst l) (map snd l) per = Ok r -> center_of_mass shape' (map fst l') (map snd l') per = Ok r' ->
  exists x, nth_error r k = Some x /\ nth_error r' j = Some x.
Proof. exact mass_axis. Qed.
Print Assumptions C125_axes_are_independent_and_alike.

Theorem C125_transposing_a_label_image :
  forall asrt shape labels labels' names per, good_shape shape -> lenZ labels = zprod shape -> lenZ labels' = zprod shape ->
  carried (transposes shape) labels labels' ->
  exists rows, labels_centers asrt shape labels names per = Ok rows /\
    labels_centers asrt (rev shape) labels' names per = Ok (map (@rev num) rows).
Proof. exact transpose_centers. Qed.
Print Assumptions C125_transposing_a_label_image.

Theorem C125_transposing_labels_and_weights :
  forall asrt shape labels labels' w w' names per, good_shape shape -> lenZ labels = zprod shape -> lenZ labels' = zprod shape ->
  lenZ w = zprod shape -> lenZ w' = zprod shape -> carried (transposes shape) labels labels' -> carried (transposes shape) w w' ->
  exists rows, labels_centers_of_mass asrt shape labels shape w names per = Ok rows /\
    labels_centers_of_mass asrt (rev shape) labels' (rev shape) w' names per = Ok (map (@rev num) rows).
Proof. exact transpose_masses. Qed.
Print Assumptions C125_transposing_labels_and_weights.

(** *** Scale: in other units, per axis, the center is the same point *)
Theorem C125_units_of_length :
  forall shape shape' (l l' : list mass) s per r, fit shape (map fst l) -> (forall k, s k <> 0) ->
  scaled_box s shape shape' -> Forall2 (scaled_mass s) l l' -> center_of_mass shape (map fst l) (map snd l) per = Ok r ->
  exists r', center_of_mass shape' (map fst l') (map snd l') per = Ok r' /\ forall k c, at_axis r k c -> at_axis r' k (s k * c).
Proof. exact mass_scaled. Qed.
Print Assumptions C125_units_of_length.

(** [center] is the case of unit weights of all of these. *)
Theorem C125_center_is_center_of_unit_masses :
  forall shape ps per, fit shape ps ->
  center shape ps per = center_of_mass shape (map fst (unit_mass ps)) (map snd (unit_mass ps)) per.
Proof. exact center_as_mass. Qed.
Print Assumptions C125_center_is_center_of_unit_masses.

(** *** Unions *)
Theorem C125_center_of_mass_of_a_union :
  forall shape (l l' : list mass) k, fit shape (map fst l) -> fit shape (map fst l') ->
  total snd l <> 0 -> total snd l' <> 0 -> total snd l + total snd l' <> 0 -> (k < length shape)%nat ->
  exists r r' r'' c c' c'', center_of_mass shape (map fst l) (map snd l) false = Ok r /\
    center_of_mass shape (map fst l') (map snd l') false = Ok r' /\
    center_of_mass shape (map fst (l ++ l')) (map snd (l ++ l')) false = Ok r'' /\
    at_axis r k c /\ at_axis r' k c' /\ at_axis r'' k c'' /\
    c'' = (total snd l * c + total snd l' * c') / (total snd l + total snd l').
Proof. exact mass_union. Qed.
Print Assumptions C125_center_of_mass_of_a_union.

Theorem C125_merging_two_labels :
  forall asrt shape labels merged a b m pa pb k, good_shape shape -> lenZ labels = zprod shape -> a <> b -> merges labels merged a b m ->
  carries shape labels a pa -> carries shape labels b pb -> pa <> [] -> pb <> [] -> (k < length shape)%nat ->
  exists ra rb r ca cb c, labels_centers asrt shape labels [a; b] false = Ok [ra; rb] /\
    labels_centers asrt shape merged [m] false = Ok [r] /\
    at_axis ra k ca /\ at_axis rb k cb /\ at_axis r k c /\
    c = (INR (length pa) * ca + INR (length pb) * cb) / (INR (length pa) + INR (length pb)).
Proof. exact merged_centers. Qed.
Print Assumptions C125_merging_two_labels.

Example C125_case :
  fit [5; 5] (map fst [([0; 4], 1); ([1; 2], 3)]) /\ total snd [([0; 4], 1); ([1; 2], 3)] = 4 /\
  Forall2 (reflected_mass (fun k => Nat.eqb k 0) (fun _ => 4)) [([0; 4], 1); ([1; 2], 3)] [([4; 4], 1); ([3; 2], 3)] /\
  scaled_box (fun k => INR k + 2) [5; 5] [10; 15] /\
  Forall2 (scaled_mass (fun k => INR k + 2)) [([0; 4], 1); ([1; 2], 3)] [([0; 12], 1); ([2; 6], 3)] /\
  Forall2 (same_along 0 1) [([0; 4], 1); ([1; 2], 3)] [([7; 0; 7], 1); ([8; 1; 8], 3)] /\
  good_shape [5%Z] /\ carried (flips [true] [5%Z]) [7; 7; 0; 0; 2]%Z [2; 0; 0; 7; 7]%Z /\
  carried (transposes [2; 3]%Z) [1; 2; 3; 4; 5; 6]%Z [1; 4; 2; 5; 3; 6]%Z /\
  merges [7; 7; 0; 0; 2]%Z [1; 1; 0; 0; 1]%Z 7 2 1 /\
  carries [5%Z] [7; 7; 0; 0; 2]%Z 7 [0; 1]%Z /\ carries [5%Z] [7; 7; 0; 0; 2]%Z 2 [4]%Z /\
  ~ balanced (side [5] 0) 0 (unit_mass (positions_of [5%Z] [0; 1]%Z)).
Proof.
  split; [intros p [<-|[<-|[]]]; reflexivity|]. split; [cbn; lra|].
  split. { constructor; [|constructor; [|constructor]]; (split; [reflexivity|]); (split; [reflexivity|]); intros [|[|k]] Hk; cbn in Hk; try lia;
             unfold coordinate, reflect; cbn [nth fst Nat.eqb]; lra. }
  split. { split; [reflexivity|]. intros [|[|k]] Hk; cbn in Hk; try lia; unfold side; cbn [nth INR]; lra. }
  split. { constructor; [|constructor; [|constructor]]; (split; [reflexivity|]); (split; [reflexivity|]); intros [|[|k]] Hk; cbn in Hk; try lia;
             unfold coordinate; cbn [nth fst INR]; lra. }
  split. { constructor; [|constructor; [|constructor]]; split; reflexivity. }
  split; [split; [discriminate|]; split; [repeat constructor; lia|reflexivity]|].
  split. { intros p q (Hp & Hq & M). unfold pixel in Hp, Hq. cbn [zprod coords flipped] in *. destruct M as [M _]. rewrite !Z.div_1_r in M.
    assert (P : (p = 0 \/ p = 1 \/ p = 2 \/ p = 3 \/ p = 4)%Z) by lia.
    decompose [or] P; subst p; (assert (Q : q = (4 - 0)%Z \/ q = 3%Z \/ q = 2%Z \/ q = 1%Z \/ q = 0%Z) by lia); decompose [or] Q; subst q; try lia; reflexivity. }
  split. { intros p q (Hp & Hq & M). unfold pixel in Hp, Hq. cbn [zprod rev app] in Hp, Hq.
    assert (P : (p = 0 \/ p = 1 \/ p = 2 \/ p = 3 \/ p = 4 \/ p = 5)%Z) by lia.
    assert (Q : (q = 0 \/ q = 1 \/ q = 2 \/ q = 3 \/ q = 4 \/ q = 5)%Z) by lia.
    decompose [or] P; subst p; decompose [or] Q; subst q; try reflexivity; vm_compute in M; discriminate. }
  split. { split; [reflexivity|]. intros p Hp. cbn [length] in Hp.
    do 5 (destruct p as [|p]; [cbn; lia|]). lia. }
  assert (G : forall name, (forall l, NoDup l -> (forall p, In p l <-> (p = 0 \/ p = 1 \/ p = 2 \/ p = 3 \/ p = 4)%Z /\ nth (Z.to_nat p) [7; 7; 0; 0; 2]%Z 0%Z = name) ->
    carries [5%Z] [7; 7; 0; 0; 2]%Z name l)).
  { intros name l N H. split; [exact N|]. intros p. rewrite H. unfold pixel. cbn [zprod]. split; intros [A B]; (split; [lia|exact B]). }
  split. { apply G; [repeat constructor; cbn; lia|]. intros p. split; [intros [<-|[<-|[]]]; split; auto|]. intros [P E]. decompose [or] P; subst p; cbn in E |- *; try discriminate; auto. }
  split. { apply G; [repeat constructor; cbn; lia|]. intros p. split; [intros [<-|[]]; split; auto|]. intros [P E]. decompose [or] P; subst p; cbn in E |- *; try discriminate; auto. }
  assert (S : 0 < sin (2 * PI * 1 / 5)) by (pose proof PI_RGT_0; apply sin_gt_0; lra).
  intros [_ B]. change (positions_of [5%Z] [0; 1]%Z) with [[0]; [1]] in B. unfold sum_sin, side, unit_mass, coordinate in B. cbn [map total fst snd nth] in B.
  replace (2 * PI * 0 / 5) with 0 in B by field. rewrite sin_0 in B. lra.
Qed.
