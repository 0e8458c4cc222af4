(** * CollapseEdge: a center next to the boundary of a periodic image *)

From Coq Require Import ZArith List Bool Reals Lra Lia Permutation.
From Verif Require Import Base BaseLemmas SpecCluster Cluster ClusterGeom ClusterTop Center SpecCenter CenterProofs CenterTop CenterLabels SpecEnsemble
  Collapse SpecCollapse CollapseProofs CollapseMean CollapseTop CollapseCase.
Import ListNotations.
Open Scope Z_scope.

Definition corner : list Z := [1;0;0;1; 1;0;0;0; 0;0;0;0; 0;0;0;0].
Definition corner_pixels : list Z := [0; 3; 4].

Lemma corner_carries : carries [4; 4] corner 1 corner_pixels.
Proof.
  split; [repeat constructor; cbn; lia|]. intro p. unfold corner_pixels, pixel. change (zprod [4; 4]) with 16. split.
  - intro H. assert (E : forallb (fun q => (0 <=? q) && (q <? 16) && (nth (Z.to_nat q) corner 0 =? 1)) [0; 3; 4] = true) by reflexivity.
    rewrite forallb_forall in E. specialize (E p H). rewrite !andb_true_iff, Z.eqb_eq in E. lia.
  - intros [P V]. assert (E : forallb (fun q => negb (nth (Z.to_nat q) corner 0 =? 1) || existsb (Z.eqb q) [0; 3; 4]) (zrange 0 16) = true) by reflexivity.
    rewrite forallb_forall in E. specialize (E p (proj2 (zrange_In 0 16 p) P)). rewrite V, Z.eqb_refl in E. apply existsb_exists in E. destruct E as (q & Q & QE).
    apply Z.eqb_eq in QE. subst. exact Q.
Qed.

(** An angle whose cosine is larger than its positive sine. *)
Lemma small_angle : forall x, (0 <= x < 2 * PI)%R -> (0 < sin x < cos x)%R -> (0 < x < PI / 4)%R.
Proof.
  intros x X [S C]. pose proof PI_RGT_0 as P.
  assert (x <> 0)%R by (intros ->; rewrite sin_0 in S; lra).
  assert (L : (x < PI)%R). { destruct (Rlt_le_dec x PI); auto. pose proof (sin_le_0 x ltac:(lra) ltac:(lra)). lra. }
  split; [lra|]. destruct (Rlt_le_dec x (PI / 4)) as [|G]; auto. exfalso.
  pose proof (sin_ge_0 (x - PI / 4) ltac:(lra) ltac:(lra)) as K. rewrite sin_minus, cos_PI4, sin_PI4 in K.
  assert (0 < 1 / sqrt 2)%R by (apply Rdiv_lt_0_compat; [lra|apply Rlt_sqrt2_0]). nra.
Qed.

Lemma corner_sums : sum_cos 4 0 (unit_mass (positions_of [4; 4] corner_pixels)) = 2%R /\ sum_sin 4 0 (unit_mass (positions_of [4; 4] corner_pixels)) = 1%R /\
  sum_cos 4 1 (unit_mass (positions_of [4; 4] corner_pixels)) = 2%R /\ sum_sin 4 1 (unit_mass (positions_of [4; 4] corner_pixels)) = (-1)%R.
Proof.
  destruct quarters as (C0 & S0 & C1 & S1 & C2 & S2 & C3 & S3).
  unfold sum_cos, sum_sin; change (positions_of [4; 4] corner_pixels) with [[0;0];[0;3];[1;0]]%R;
    cbn [unit_mass map total fst snd]; unfold coordinate; cbn [nth]; rewrite ?C0, ?S0, ?C1, ?S1, ?C2, ?S2, ?C3, ?S3. repeat split; lra.
Qed.

Lemma corner_center : exists a b, center_along true [4; 4] corner 1 0 a /\ center_along true [4; 4] corner 1 1 b /\ (0 < a < / 2)%R /\ (7 / 2 < b < 4)%R.
Proof.
  assert (N : positions_of [4; 4] corner_pixels <> []) by discriminate. destruct corner_sums as (SC0 & SS0 & SC1 & SS1). pose proof PI_RGT_0 as P.
  destruct (center_circular (map IZR [4; 4]) (positions_of [4; 4] corner_pixels) 0 (positions_fit _ _) N ltac:(cbn; lia) ltac:(cbn; lra)) as (r & a & E & L & A & B & (rho & R0 & CC & SS)).
  destruct (center_circular (map IZR [4; 4]) (positions_of [4; 4] corner_pixels) 1 (positions_fit _ _) N ltac:(cbn; lia) ltac:(cbn; lra)) as (r' & b & E' & L' & A' & B' & (rho' & R0' & CC' & SS')).
  change (side (map IZR [4; 4]) 0) with 4%R in *. change (side (map IZR [4; 4]) 1) with 4%R in *. rewrite SC0 in CC. rewrite SS0 in SS. rewrite SC1 in CC'. rewrite SS1 in SS'.
  exists a, b.
  split; [intros ps C; exists r; split; auto; rewrite <- E; apply center_perm, Permutation_map; eapply carries_perm; [exact C|apply corner_carries]|].
  split; [intros ps C; exists r'; split; auto; rewrite <- E'; apply center_perm, Permutation_map; eapply carries_perm; [exact C|apply corner_carries]|].
  split.
  - assert (RP : (0 < rho)%R) by (destruct R0 as [|<-]; lra).
    set (x := (2 * PI * a / 4)%R) in *.
    assert (X : (0 <= x < 2 * PI)%R) by (unfold x; split; nra).
    destruct (small_angle x X) as [X1 X2]; [split; apply (Rmult_lt_reg_l rho); lra|]. unfold x in X1, X2. split; apply (Rmult_lt_reg_l PI); lra.
  - assert (RP : (0 < rho')%R) by (destruct R0' as [|<-]; lra).
    set (x := (2 * PI * b / 4)%R) in *.
    assert (X : (0 <= x < 2 * PI)%R) by (unfold x; split; nra).
    assert (X0 : x <> 0%R) by (intro Z0; rewrite Z0, sin_0 in SS'; lra).
    assert (SY : sin (2 * PI - x) = (- sin x)%R) by (rewrite sin_minus, sin_2PI, cos_2PI; ring).
    assert (CY : cos (2 * PI - x) = cos x) by (rewrite cos_minus, sin_2PI, cos_2PI; ring).
    destruct (small_angle (2 * PI - x)) as [X1 X2]; [lra|rewrite SY, CY; split; apply (Rmult_lt_reg_l rho'); lra|]. unfold x in X1, X2. split; apply (Rmult_lt_reg_l PI); lra.
Qed.

Lemma clipped : exists shape img lab ce p b, clusters true shape img true = Ok lab /\ collapse true shape lab true = Ok ce /\
  (exists q, pixel shape q /\ zn img q = 0) /\ center_along true shape lab 1 1 b /\ (IZR (nth 1 shape 0%Z) - / 2 < b < IZR (nth 1 shape 0%Z))%R /\
  pixel shape p /\ zn ce p = 1 /\ nth 1 (coords shape p) 0 = nth 1 shape 0 - 1.
Proof.
  destruct corner_center as (a & b & CA & CB & A & B).
  assert (HF : Forall (fun n => 1 <= n) [4; 4]) by (repeat constructor; lia).
  destruct (collapse_ok true true [4; 4] corner ltac:(discriminate) HF eq_refl) as (ce & EC & LC & K).
  exists [4; 4], corner, corner, ce, 3, b. split; [vm_compute; reflexivity|]. split; auto. split; [exists 1; split; [unfold pixel; cbn; lia|reflexivity]|].
  split; auto. split; [cbn [nth]; lra|].
  assert (P : pixel [4; 4] 3) by (unfold pixel; cbn; lia). split; auto. split; [|reflexivity].
  assert (LAB : forall v, occurs [4; 4] corner v -> v = 0 \/ v = 1).
  { intros v (p & Q & <-). assert (E : forallb (fun q => (zn corner q =? 0) || (zn corner q =? 1)) (zrange 0 16) = true) by reflexivity.
    rewrite forallb_forall in E. specialize (E p (proj2 (zrange_In 0 16 p) Q)). rewrite orb_true_iff, !Z.eqb_eq in E. exact E. }
  destruct (K 3 P) as [K1 _]. apply K1.
  - split; [exists 0; split; [unfold pixel; cbn; lia|reflexivity]|]. exists 0. split; [exists 1; split; [unfold pixel; cbn; lia|reflexivity]|lia].
  - split; auto. intros [|[|k]] H; [exists a|exists b|cbn in H; lia]; (split; [assumption|]); cbn [coords nth zprod]; change (3 / (4 * 1)) with 0; change (3 mod (4 * 1) / 1) with 3.
    + apply near_closest; [lia|]. left. rewrite Rabs_pos_eq; lra.
    + split; [lia|]. intros y Y NE. left. assert (y <= 2) by lia. apply IZR_le in H0. rewrite !Rabs_pos_eq; lra.
  - intros w [O _] _. destruct (LAB w O); lia.
Qed.

(** Two clusters, both contain their centers. *)
Lemma dots_occurs : forall v, occurs [6] [0;1;1;1;0;2] v -> v = 0 \/ v = 1 \/ v = 2.
Proof.
  intros v (p & P & <-). assert (E : forallb (fun q => (zn [0;1;1;1;0;2] q =? 0) || ((zn [0;1;1;1;0;2] q =? 1) || (zn [0;1;1;1;0;2] q =? 2))) (zrange 0 6) = true) by reflexivity.
  rewrite forallb_forall in E. specialize (E p (proj2 (zrange_In 0 6 p) P)). rewrite !orb_true_iff, !Z.eqb_eq in E. exact E.
Qed.

Lemma dots_case : clusters true [6] [0;1;1;1;0;1] false = Ok [0;1;1;1;0;2] /\ mean_pixel [6] [0;1;1;1;0;2] 1 2 /\ mean_pixel [6] [0;1;1;1;0;2] 2 5 /\
  (forall v p, v <> 0 -> occurs [6] [0;1;1;1;0;2] v -> centre_pixel false [6] [0;1;1;1;0;2] v p -> zn [0;1;1;1;0;2] p = v) /\
  counts false [6] [0;1;1;1;0;2] 1 /\ counts false [6] [0;1;1;1;0;2] 2 /\
  collapse true [6] [0;1;1;1;0;2] false = Ok [0;0;1;0;0;2].
Proof.
  assert (HF : Forall (fun n => 1 <= n) [6]) by (repeat constructor; lia).
  assert (E : clusters true [6] [0;1;1;1;0;1] false = Ok [0;1;1;1;0;2]) by (vm_compute; reflexivity).
  assert (M1 : mean_pixel [6] [0;1;1;1;0;2] 1 2) by (apply mean_pixelb_ok; reflexivity).
  assert (M2 : mean_pixel [6] [0;1;1;1;0;2] 2 5) by (apply mean_pixelb_ok; reflexivity).
  assert (O0 : occurs [6] [0;1;1;1;0;2] 0) by (exists 0; split; [unfold pixel; cbn; lia|reflexivity]).
  assert (O1 : occurs [6] [0;1;1;1;0;2] 1) by (exists 1; split; [unfold pixel; cbn; lia|reflexivity]).
  assert (O2 : occurs [6] [0;1;1;1;0;2] 2) by (exists 5; split; [unfold pixel; cbn; lia|reflexivity]).
  assert (C1 : centre_pixel false [6] [0;1;1;1;0;2] 1 2) by (apply mean_centre; auto; discriminate).
  assert (C2 : centre_pixel false [6] [0;1;1;1;0;2] 2 5) by (apply mean_centre; auto; discriminate).
  assert (OWN : forall v p, v <> 0 -> occurs [6] [0;1;1;1;0;2] v -> centre_pixel false [6] [0;1;1;1;0;2] v p -> zn [0;1;1;1;0;2] p = v).
  { intros v p N O C. destruct (dots_occurs v O) as [->|[->| ->]]; [congruence| |].
    - assert (p = 2) as -> by (eapply (centre_unique false [6] [0;1;1;1;0;2]); eauto). reflexivity.
    - assert (p = 5) as -> by (eapply (centre_unique false [6] [0;1;1;1;0;2]); eauto). reflexivity. }
  assert (HG : good_shape [6]) by (split; [discriminate|]; split; [repeat constructor; lia|reflexivity]).
  pose proof (all_count true false [6] [0;1;1;1;0;1] [0;1;1;1;0;2] HG ltac:(cbn; lia) HF eq_refl E ltac:(exists 0; split; [unfold pixel; cbn; lia|reflexivity]) OWN) as AC.
  split; auto. split; auto. split; auto. split; auto. split; [apply AC; split; [lia|auto]|]. split; [apply AC; split; [lia|auto]|].
  destruct (collapse_ok true false [6] [0;1;1;1;0;2] ltac:(discriminate) HF eq_refl) as (ce & EC & LC & K). rewrite EC. f_equal.
  assert (N1 : named [6] [0;1;1;1;0;2] 1) by (split; auto; exists 0; split; auto; lia).
  assert (N2 : named [6] [0;1;1;1;0;2] 2) by (split; auto; exists 0; split; auto; lia).
  assert (X2 : zn ce 2 = 1). { apply (K 2 ltac:(unfold pixel; cbn; lia)); auto. intros w [O _] C. destruct (dots_occurs w O) as [->|[->| ->]]; try lia. assert (2 = 5); [|lia]. eapply (centre_unique false [6] [0;1;1;1;0;2]); eauto. }
  assert (X5 : zn ce 5 = 2). { apply (K 5 ltac:(unfold pixel; cbn; lia)); auto. intros w [O _] C. destruct (dots_occurs w O) as [->|[->| ->]]; lia. }
  assert (X0 : forall p, pixel [6] p -> p <> 2 -> p <> 5 -> zn ce p = 0).
  { intros p P N2' N5'. apply (K p P). intros v [O (u & OU & LT)] C. destruct (dots_occurs v O) as [->|[->| ->]].
    - destruct (dots_occurs u OU) as [->|[->| ->]]; lia.
    - apply N2'. exact (centre_unique false [6] [0;1;1;1;0;2] HF eq_refl 1 p 2 O1 C C1).
    - apply N5'. exact (centre_unique false [6] [0;1;1;1;0;2] HF eq_refl 2 p 5 O2 C C2). }
  pose proof (X0 0 ltac:(unfold pixel; cbn; lia) ltac:(lia) ltac:(lia)) as Y0. pose proof (X0 1 ltac:(unfold pixel; cbn; lia) ltac:(lia) ltac:(lia)) as Y1.
  pose proof (X0 3 ltac:(unfold pixel; cbn; lia) ltac:(lia) ltac:(lia)) as Y3. pose proof (X0 4 ltac:(unfold pixel; cbn; lia) ltac:(lia) ltac:(lia)) as Y4.
  clear -LC X2 X5 Y0 Y1 Y3 Y4. unfold lenZ in LC. cbn in LC.
  destruct ce as [|a0 [|a1 [|a2 [|a3 [|a4 [|a5 [|a6 t]]]]]]]; cbn [length] in LC; try lia.
  cbv in X2, X5, Y0, Y1, Y3, Y4. subst. reflexivity.
Qed.
