(** * AxesCenter: centers of label images with their axes in another order (proofs only) *)

From Coq Require Import ZArith List Bool Reals Lra Lia Permutation.
From Verif Require Import Base BaseLemmas Cluster SpecCluster SpecSymmetry ClusterGeom KernelProofs DerivedCluster Center SpecCenter SpecCenterMoved SpecCenterMirror CenterProofs CenterTop CenterLabels CenterRefute CenterMoved CenterMirror
  SpecAxes AxesLaws.
Import ListNotations.
Open Scope R_scope.

Lemma coordinate_arr : forall o (x : list Z) j, (j < length o)%nat -> (nth j o 0 < length x)%nat -> coordinate j (map IZR (arr o x)) = coordinate (nth j o 0%nat) (map IZR x).
Proof.
  intros o x j J K. unfold coordinate. change 0 with (IZR 0%Z). rewrite !map_nth. f_equal. apply arr_nth. exact J.
Qed.

Lemma permuted_along : forall o shape w w' pixels pixels' j, axes o (length shape) -> carried (permutes o shape) w w' -> Forall2 (permutes o shape) pixels pixels' -> (j < length shape)%nat ->
  Forall2 (same_along (nth j o 0%nat) j) (masses_of shape w pixels) (masses_of (arr o shape) w' pixels').
Proof.
  intros o shape w w' pixels pixels' j HO HC HF J. pose proof (axes_length _ _ HO) as LO. pose proof (axes_bound _ _ j HO J) as B.
  induction HF as [|p q l l' R HF IH]; [constructor|]. cbn [masses_of map]. constructor; [|exact IH].
  split; cbn [fst snd]; [exact (carried_nth _ 0 _ _ _ HC p q R)|]. destruct R as (_ & _ & E). rewrite E. apply coordinate_arr; [lia|].
  rewrite coords_length. exact B.
Qed.

Lemma permuted_units : forall o shape pixels pixels' j, axes o (length shape) -> Forall2 (permutes o shape) pixels pixels' -> (j < length shape)%nat ->
  Forall2 (same_along (nth j o 0%nat) j) (unit_mass (positions_of shape pixels)) (unit_mass (positions_of (arr o shape) pixels')).
Proof.
  intros o shape pixels pixels' j HO HF J. pose proof (axes_length _ _ HO) as LO. pose proof (axes_bound _ _ j HO J) as B.
  induction HF as [|p q l l' R HF IH]; [constructor|]. constructor; [|exact IH].
  split; cbn [fst snd]; [reflexivity|]. destruct R as (_ & _ & E). rewrite E. apply coordinate_arr; [lia|]. rewrite coords_length. exact B.
Qed.

Lemma permuted_row : forall o shape (l l' : list mass) per r r', axes o (length shape) -> fit (map IZR shape) (map fst l) -> fit (map IZR (arr o shape)) (map fst l') ->
  (forall j, (j < length shape)%nat -> Forall2 (same_along (nth j o 0%nat) j) l l') ->
  center_of_mass (map IZR shape) (map fst l) (map snd l) per = Ok r -> center_of_mass (map IZR (arr o shape)) (map fst l') (map snd l') per = Ok r' -> r' = arranged NaN o r.
Proof.
  intros o shape l l' per r r' HO F F' H E E'. pose proof (axes_length _ _ HO) as LO.
  destruct (mass_total _ _ per F) as (x & X & LX). destruct (mass_total _ _ per F') as (y & Y & LY). rewrite E in X. injection X as <-. rewrite E' in Y. injection Y as <-.
  rewrite map_length in LX. rewrite map_length, arr_length in LY. apply (arr_ext num NaN); [rewrite arr_length; lia|]. intros j J. rewrite LY, LO in J.
  pose proof (axes_bound _ _ j HO J) as B.
  destruct (mass_axis (map IZR shape) (map IZR (arr o shape)) l l' per (nth j o 0%nat) j r r') as (v & V & V'); auto; rewrite ?map_length, ?arr_length; try lia.
  - unfold side. change 0 with (IZR 0%Z). rewrite !map_nth. f_equal. apply arr_nth. lia.
  - rewrite arr_nth by lia. rewrite (nth_error_nth _ _ _ V), (nth_error_nth _ _ _ V'). reflexivity.
Qed.

Lemma permuted_centers : forall asrt order shape labels labels' names per, good_shape shape -> axes order (length shape) ->
  lenZ labels = zprod shape -> lenZ labels' = zprod shape -> carried (permutes order shape) labels labels' ->
  exists rows, labels_centers asrt shape labels names per = Ok rows /\
    labels_centers asrt (arranged 0%Z order shape) labels' names per = Ok (map (arranged NaN order) rows).
Proof.
  intros asrt o shape labels labels' names per G HO L L' HC.
  pose proof (permutes_matching o shape HO (good_positive shape G)) as MT.
  pose proof (good_shape_arr o _ HO shape eq_refl G) as (N & _).
  assert (L2 : lenZ labels' = zprod (arr o shape)) by (rewrite zprod_arr by exact HO; exact L').
  destruct (labels_centers_ok asrt shape labels names per (proj1 G) L) as (rows & R & RF).
  destruct (labels_centers_ok asrt (arr o shape) labels' names per N L2) as (rows' & R' & RF').
  exists rows. split; [exact R|]. rewrite R'. f_equal. clear R R'. revert rows' RF'. induction RF as [|name row names rows H RF IH]; intros rows' RF'; inversion RF' as [|? row' ? rows'' H' RF'']; subst; [reflexivity|].
  cbn [map]. f_equal; [|apply IH; exact RF''].
  destruct (carries_hits shape labels name L) as (pixels & HP).
  destruct (matched_pixels _ _ _ pixels MT) as (pixels' & RP); [intros p Hp; apply (proj2 HP) in Hp; tauto|].
  pose proof (matched_carries _ _ _ _ _ _ _ _ MT HC HP RP) as HP'. specialize (H _ HP). specialize (H' _ HP').
  rewrite center_as_mass in H, H' by apply fit_positions.
  apply (permuted_row o shape _ _ per row row' HO (unit_fit _ _) (unit_fit _ _)) with (2 := H) (3 := H').
  intros k K. apply permuted_units; assumption.
Qed.

Lemma permuted_masses : forall asrt order shape labels labels' w w' names per, good_shape shape -> axes order (length shape) ->
  lenZ labels = zprod shape -> lenZ labels' = zprod shape -> lenZ w = zprod shape -> lenZ w' = zprod shape ->
  carried (permutes order shape) labels labels' -> carried (permutes order shape) w w' ->
  exists rows, labels_centers_of_mass asrt shape labels shape w names per = Ok rows /\
    labels_centers_of_mass asrt (arranged 0%Z order shape) labels' (arranged 0%Z order shape) w' names per = Ok (map (arranged NaN order) rows).
Proof.
  intros asrt o shape labels labels' w w' names per G HO L L' LW LW' HC HCW.
  pose proof (permutes_matching o shape HO (good_positive shape G)) as MT.
  pose proof (good_shape_arr o _ HO shape eq_refl G) as (N & NN' & _).
  assert (L2 : lenZ labels' = zprod (arr o shape)) by (rewrite zprod_arr by exact HO; exact L').
  assert (LW2 : lenZ w' = zprod (arr o shape)) by (rewrite zprod_arr by exact HO; exact LW').
  assert (NN : Forall (fun n => (0 <= n)%Z) shape) by (destruct G as (_ & H & _); exact H).
  destruct (labels_mass_ok asrt shape labels w names per (proj1 G) NN L LW) as (rows & R & RF).
  destruct (labels_mass_ok asrt (arr o shape) labels' w' names per N NN' L2 LW2) as (rows' & R' & RF').
  exists rows. split; [exact R|]. rewrite R'. f_equal. clear R R'. revert rows' RF'. induction RF as [|name row names rows H RF IH]; intros rows' RF'; inversion RF' as [|? row' ? rows'' H' RF'']; subst; [reflexivity|].
  cbn [map]. f_equal; [|apply IH; exact RF''].
  destruct (carries_hits shape labels name L) as (pixels & HP).
  destruct (matched_pixels _ _ _ pixels MT) as (pixels' & RP); [intros p Hp; apply (proj2 HP) in Hp; tauto|].
  pose proof (matched_carries _ _ _ _ _ _ _ _ MT HC HP RP) as HP'. specialize (H _ HP). specialize (H' _ HP').
  rewrite <- (masses_fst shape w pixels), <- (masses_snd shape w pixels) in H. rewrite <- (masses_fst (arr o shape) w' pixels'), <- (masses_snd (arr o shape) w' pixels') in H'.
  apply (permuted_row o shape _ _ per row row' HO (masses_fit _ _ _) (masses_fit _ _ _)) with (2 := H) (3 := H').
  intros k K. apply permuted_along; assumption.
Qed.
