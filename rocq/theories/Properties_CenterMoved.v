(** * Properties_CenterMoved: C100

    Centers move with what they are the center of.  Statements only; [displaced_mass],
    [wrapped_mass], [masses_of] are defined in SpecCenterMoved, [displaced], [same_point],
    [balanced], [carries], ... in SpecCenter, [rolls], [carried] in SpecSymmetry. *)

From Coq Require Import ZArith List Bool Reals Lra Lia.
From Verif Require Import Base SpecCluster SpecSymmetry Center SpecCenter SpecCenterMoved CenterMoved.
Import ListNotations.
Open Scope R_scope.

(** ** C100 *)
Theorem C100_center_of_mass_translates :
  forall shape (l l' : list mass) t k, fit shape (map fst l) -> total snd l <> 0 -> Forall2 (displaced_mass t) l l' ->
  (k < length shape)%nat ->
  exists r r' c c', center_of_mass shape (map fst l) (map snd l) false = Ok r /\
    center_of_mass shape (map fst l') (map snd l') false = Ok r' /\
    at_axis r k c /\ at_axis r' k c' /\ c' = c + t k.
Proof. exact mass_translate_mean. Qed.
Print Assumptions C100_center_of_mass_translates.

(** In a periodic box which image of a position is given does not matter, whatever the
    weights. *)
Theorem C100_center_of_mass_of_wrapped_positions :
  forall shape (l l' : list mass), fit shape (map fst l) -> Forall2 (wrapped_mass shape) l l' ->
  center_of_mass shape (map fst l) (map snd l) true = center_of_mass shape (map fst l') (map snd l') true.
Proof. exact mass_wrapped. Qed.
Print Assumptions C100_center_of_mass_of_wrapped_positions.

(** Translations in a periodic box, and rolled images: unless the positions balance (C48). *)
Theorem C100_periodic_center_of_mass_translates_partial :
  forall shape (l l' : list mass) t k, fit shape (map fst l) -> 0 < total snd l -> Forall2 (displaced_mass t) l l' ->
  (k < length shape)%nat -> 0 < side shape k -> ~ balanced (side shape k) k l ->
  exists r r' c c', center_of_mass shape (map fst l) (map snd l) true = Ok r /\
    center_of_mass shape (map fst l') (map snd l') true = Ok r' /\
    at_axis r k c /\ at_axis r' k c' /\ same_point (side shape k) (c + t k) c'.
Proof. exact mass_translate. Qed.
Print Assumptions C100_periodic_center_of_mass_translates_partial.

Theorem C100_rolling_a_label_image_partial :
  forall asrt shape d labels labels' name pixels k, good_shape shape -> length d = length shape ->
  lenZ labels = zprod shape -> lenZ labels' = zprod shape ->
  carried (rolls d shape) labels labels' -> carries shape labels name pixels -> pixels <> [] ->
  (k < length shape)%nat -> ~ balanced (side (map IZR shape) k) k (unit_mass (positions_of shape pixels)) ->
  exists r r' c c', labels_centers asrt shape labels [name] true = Ok [r] /\
    labels_centers asrt shape labels' [name] true = Ok [r'] /\ at_axis r k c /\ at_axis r' k c' /\
    same_point (side (map IZR shape) k) (c + IZR (nth k d 0%Z)) c'.
Proof. exact rolled_centers. Qed.
Print Assumptions C100_rolling_a_label_image_partial.

Theorem C100_rolling_labels_and_weights_partial :
  forall asrt shape d labels labels' w w' name pixels k, good_shape shape -> length d = length shape ->
  lenZ labels = zprod shape -> lenZ labels' = zprod shape -> lenZ w = zprod shape -> lenZ w' = zprod shape ->
  carried (rolls d shape) labels labels' -> carried (rolls d shape) w w' -> carries shape labels name pixels ->
  (k < length shape)%nat -> 0 < total snd (masses_of shape w pixels) ->
  ~ balanced (side (map IZR shape) k) k (masses_of shape w pixels) ->
  exists r r' c c', labels_centers_of_mass asrt shape labels shape w [name] true = Ok [r] /\
    labels_centers_of_mass asrt shape labels' shape w' [name] true = Ok [r'] /\ at_axis r k c /\ at_axis r' k c' /\
    same_point (side (map IZR shape) k) (c + IZR (nth k d 0%Z)) c'.
Proof. exact rolled_centers_of_mass. Qed.
Print Assumptions C100_rolling_labels_and_weights_partial.

(** Two opposite pixels: their center does not move with the image. *)
Theorem C100_rolling_refuted :
  exists shape d labels labels' name r r' c c', good_shape shape /\ length d = length shape /\
  lenZ labels = zprod shape /\ lenZ labels' = zprod shape /\ carried (rolls d shape) labels labels' /\ In name labels /\
  labels_centers true shape labels [name] true = Ok [r] /\ labels_centers true shape labels' [name] true = Ok [r'] /\
  at_axis r 0 c /\ at_axis r' 0 c' /\ ~ same_point (side (map IZR shape) 0) (c + IZR (nth 0 d 0%Z)) c'.
Proof. exact rolled_balanced. Qed.
Print Assumptions C100_rolling_refuted.

Example C100_case :
  fit [5] (map fst [([0], 1); ([1], 3)]) /\ total snd [([0], 1); ([1], 3)] = 4 /\
  Forall2 (displaced_mass (fun _ => 6)) [([0], 1); ([1], 3)] [([6], 1); ([7], 3)] /\
  Forall2 (wrapped_mass [5]) [([6], 1); ([7], 3)] [([1], 1); ([-3], 3)] /\
  good_shape [5%Z] /\ carried (rolls [1%Z] [5%Z]) [7; 7; 0; 0; 0]%Z [0; 7; 7; 0; 0]%Z /\
  carried (rolls [1%Z] [5%Z]) [1; 3; 0; 0; 0] [0; 1; 3; 0; 0] /\
  carries [5%Z] [7; 7; 0; 0; 0]%Z 7 [0; 1]%Z /\ 0 < total snd (masses_of [5%Z] [1; 3; 0; 0; 0] [0; 1]%Z) /\
  ~ balanced (side [5] 0) 0 (masses_of [5%Z] [1; 3; 0; 0; 0] [0; 1]%Z) /\
  ~ balanced (side [5] 0) 0 (unit_mass (positions_of [5%Z] [0; 1]%Z)).
Proof.
  assert (RF : forall p q, rolls [1%Z] [5%Z] p q -> (p = 0 /\ q = 1 \/ p = 1 /\ q = 2 \/ p = 2 /\ q = 3 \/ p = 3 /\ q = 4 \/ p = 4 /\ q = 0)%Z).
  { intros p q (Hp & Hq & M). unfold pixel in Hp, Hq. cbn [zprod coords moved] in *. destruct M as [M _]. rewrite !Z.div_1_r in M.
    assert (P : (p = 0 \/ p = 1 \/ p = 2 \/ p = 3 \/ p = 4)%Z) by lia. decompose [or] P; subst p; cbn in M; lia. }
  assert (S : 0 < sin (2 * PI * 1 / 5)) by (pose proof PI_RGT_0; apply sin_gt_0; lra).
  assert (Z : 2 * PI * 0 / 5 = 0) by field.
  split; [intros p [<-|[<-|[]]]; reflexivity|]. split; [cbn; lra|].
  split. { constructor; [|constructor; [|constructor]]; (split; [reflexivity|]); (split; [reflexivity|]); intros [|k] Hk; cbn in Hk; try lia;
             unfold coordinate; cbn [nth fst]; lra. }
  split. { constructor; [|constructor; [|constructor]]; (split; [reflexivity|]); (split; [reflexivity|]); intros [|k] Hk; cbn in Hk; try lia;
             unfold side, coordinate; cbn [nth fst]; [exists (-1)%Z|exists (-2)%Z]; lra. }
  split; [split; [discriminate|]; split; [repeat constructor; lia|reflexivity]|].
  split; [intros p q H; apply RF in H; decompose [or and] H; subst; reflexivity|].
  split; [intros p q H; apply RF in H; decompose [or and] H; subst; reflexivity|].
  split. { split; [repeat constructor; cbn; lia|]. intros p. unfold pixel. cbn [zprod]. split.
    - intros [<-|[<-|[]]]; (split; [lia|reflexivity]).
    - intros [B E]. assert (P : (p = 0 \/ p = 1 \/ p = 2 \/ p = 3 \/ p = 4)%Z) by lia. decompose [or] P; subst p; cbn in E; try discriminate; cbn; tauto. }
  assert (M : masses_of [5%Z] [1; 3; 0; 0; 0] [0; 1]%Z = [([0], 1); ([1], 3)]) by reflexivity.
  assert (P : positions_of [5%Z] [0; 1]%Z = [[0]; [1]]) by reflexivity.
  rewrite M, P. split; [cbn; lra|].
  split; intros [_ B]; unfold sum_sin, side, unit_mass, coordinate in B; cbn [map total fst snd nth] in B;
    replace (2 * PI * 0 / 5) with 0 in B by field; rewrite sin_0 in B; lra.
Qed.
