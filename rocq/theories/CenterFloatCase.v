(** * CenterFloatCase: boxes once more, and a case *)

From Coq Require Import ZArith Reals List Bool Lia Lra Psatz Permutation.
From Flocq Require Import Core BinarySingleNaN.
From Verif Require Import Base Cluster SpecCluster Center SpecCenter CenterProofs CenterTop CenterLabels Double SpecDouble DoubleProofs DoubleError
  CirclesFloat CirclesFloatGrid CenterFloat SpecCenterFloat CenterFloatSums CenterFloatTrig CenterFloatTop CenterFloatBox.
Import SpecCenter ListNotations.
Open Scope R_scope.

Lemma in_the_box : forall T shape ps k len, sums T -> precise T -> Forall (finite_position shape) ps -> (lenZ ps <= 2 ^ 40)%Z ->
  proper_side shape k len -> (forall p, In p ps -> Rabs (coordinate k (real_position p)) <= bpow radix2 20 * len) ->
  exists r c, fcenter T shape ps true = Ok r /\ at_faxis r k c /\ 0 <= B2R c <= len * (1 + bpow radix2 (-51)).
Proof.
  intros T shape ps k len HT HP HF HL HS HB.
  assert (E : exists r, fcenter T shape ps true = Ok r).
  { unfold fcenter. assert (FIT : frows_fit shape ps = true) by (apply frows_fit_iff; intros p Hp; rewrite Forall_forall in HF; apply HF; exact Hp).
    rewrite FIT. cbn [negb]. destruct (fno_positions shape ps); eexists; reflexivity. }
  destruct E as (r & E). destruct (box_center T shape ps k len true r HT HP HF HL HS HB eq_refl E) as (c & C). exists r, c. split; assumption.
Qed.

Lemma case_pixels : carries [4%Z] [1; 1; 0; 0]%Z 1%Z [0; 1]%Z.
Proof.
  split; [repeat constructor; cbn; lia|]. intros p. split.
  - intros [<-|[<-|[]]]; (split; [split; cbn; lia|reflexivity]).
  - intros [[P1 P2] E]. cbn in P2. assert (C : (p = 0 \/ p = 1 \/ p = 2 \/ p = 3)%Z) by lia. destruct C as [->|[->|[->| ->]]]; cbn in *; auto; discriminate.
Qed.

Lemma case_positions : positions_of [4%Z] [0; 1]%Z = [[0]; [1]].
Proof. reflexivity. Qed.

Lemma angle_quarter : 2 * PI * 1 / 4 = PI / 2. Proof. lra. Qed.
Lemma angle_zero : 2 * PI * 0 / 4 = 0. Proof. lra. Qed.

Lemma case_sums : sum_cos 4 0 (unit_mass [[0]; [1]]) = 1 /\ sum_sin 4 0 (unit_mass [[0]; [1]]) = 1 /\ total snd (unit_mass [[0]; [1]]) = 2.
Proof.
  unfold sum_cos, sum_sin, unit_mass. cbn [map total fst snd]. unfold coordinate. cbn [nth]. rewrite angle_quarter, angle_zero, cos_0, sin_0, cos_PI2, sin_PI2. lra.
Qed.

Lemma case_concentration : / 2 <= concentration 4 0 (unit_mass [[0]; [1]]).
Proof.
  unfold concentration. destruct case_sums as (-> & -> & ->). assert (1 <= sqrt (1 * 1 + 1 * 1)) by (rewrite <- sqrt_1 at 1; apply sqrt_le_1_alt; lra). lra.
Qed.

Lemma case_mean : circular_mean 4 0 (unit_mass [[0]; [1]]) (/ 2).
Proof.
  destruct case_sums as (E1 & E2 & _). exists (sqrt 2). rewrite E1, E2. replace (2 * PI * / 2 / 4) with (PI / 4) by lra. rewrite cos_PI4, sin_PI4.
  assert (S : 0 < sqrt 2) by (apply sqrt_lt_R0; lra). repeat split; try (field; lra). lra.
Qed.

Lemma case_center : exists c m, flabels_centers exact_trig true [4%Z] [1; 1; 0; 0]%Z [1%Z] true = Ok [[c]] /\ Rabs (B2R c - (/ 2 + IZR m * 4)) <= bpow radix2 (-40).
Proof.
  destruct (labels_circular exact_trig true [4%Z] [1; 1; 0; 0]%Z [1%Z] exact_sums exact_precise) as (rows & E & F); [discriminate|repeat constructor; lia|reflexivity|cbn; lia|repeat constructor; lia|].
  inversion F as [|x row l rows' H HR]; subst. inversion HR; subst. clear F HR.
  specialize (H [0; 1]%Z 0%nat case_pixels ltac:(discriminate) ltac:(cbn; lia)). cbv zeta in H. rewrite case_positions in H.
  change (IZR (nth 0 [4%Z] 0%Z)) with 4 in H. change (INR (length [0; 1]%Z)) with (1 + 1) in H.
  assert (B46 : bpow radix2 (-46) = / 70368744177664) by reflexivity. pose proof case_concentration as CC.
  destruct H as (c & [AC _] & _ & HN). destruct (HN ltac:(rewrite B46; lra) _ case_mean) as (m & HM).
  exists c, m. split.
  - rewrite E. f_equal. f_equal. assert (L : length row = 1%nat).
    { unfold flabels_centers in E. cbn [length Nat.ltb Nat.leb assertb bind mapM where_equal] in E. unfold fcenter in E. cbn [mapM bind] in E.
      match type of E with context [fno_positions ?a ?b] => destruct (fno_positions a b) end.
      - injection E as <-. reflexivity.
      - match type of E with context [negb (frows_fit ?a ?b)] => destruct (negb (frows_fit a b)) end; [discriminate|]. cbn [bind] in E. injection E as <-. reflexivity. }
    destruct row as [|z [|? ?]]; cbn in L; try discriminate. cbn in AC. injection AC as ->. reflexivity.
  - apply Rle_trans with (1 := HM). set (k := concentration 4 0 (unit_mass [[0]; [1]])) in *.
    apply Rle_trans with (4 * (3 * / 70368744177664 * 2)).
    + apply Rmult_le_compat_l; [lra|]. rewrite B46. unfold Rdiv. apply Rmult_le_compat; try lra; [left; apply Rinv_0_lt_compat; lra|].
      replace 2 with (/ / 2) by lra. apply Rinv_le_contravar; lra.
    + change (bpow radix2 (-40)) with (/ 1099511627776). lra.
Qed.
