(** * CollapseCase: clusters that [W2c] does not count *)

From Coq Require Import ZArith List Bool Reals QArith Qcanon Lra Lia Permutation.
From Verif Require Import Base BaseLemmas SpecCluster Cluster ClusterGeom ClusterTop Center SpecCenter CenterProofs CenterTop CenterLabels SpecPath Path Ensemble SpecEnsemble EnsembleSums
  Collapse SpecCollapse CollapseProofs CollapseMean CollapseTop.
Import ListNotations.
Open Scope Z_scope.

(** If no label counts, nothing is found. *)
Lemma nothing : forall asrt per var roi shape mode labels f, shapes per roi shape -> walkable mode roi -> even_sided roi -> shape <> [] ->
  lenZ labels = zprod shape -> is_image shape f -> (forall v, ~ counts per shape labels v) ->
  exists ce e, collapse asrt shape labels per = Ok ce /\
    fresh asrt roi per var (CallW2c (mkimg shape labels) (mkimg shape ce) f None mode) = Ok e /\ forall r, pixel roi r -> norm_at e r = 0%Qc.
Proof.
  intros asrt per var roi shape mode labels f H1 H2 H3 N HL HI NC.
  destruct (W2c_collapsed asrt per var roi shape mode H1 H2 H3 N) as (paths & P & A).
  assert (HM : is_mask shape (zeros shape)).
  { assert (Z0 : 0 <= zprod shape). { destruct H1 as (_ & _ & _ & HF & _). clear -HF. induction HF; cbn [zprod]; [lia|]. apply Z.mul_nonneg_nonneg; lia. }
    split; [split; [reflexivity|]; cbn; unfold lenZ; rewrite repeat_length; lia|]. cbn. intros x X. apply repeat_spec in X. now left. }
  destruct (A labels f (zeros shape) HL HI HM) as (ce & e & vs & cs & EC & EF & _ & I & F2 & R).
  exists ce, e. split; auto. split.
  { unfold fresh in *. destruct (ensemble asrt roi per var) as [e0| | |]; auto. destruct HI as [HI _]. cbn [bind add mask1] in *. rewrite HI. exact EF. }
  intros r HR. destruct (R r HR) as (_ & -> & _). assert (vs = []) as -> by (destruct vs as [|v vs]; auto; exfalso; apply (NC v), I; now left).
  inversion F2; subst. unfold collected. cbn [sum_over fold_right]. apply sum_zero.
Qed.

(** ** A ring *)
Definition ring : list Z := [1;1;1;0; 1;0;1;0; 1;1;1;0; 0;0;0;0].
Definition ring_pixels : list Z := [0; 1; 2; 4; 6; 8; 9; 10].

Lemma ring_carries : carries [4; 4] ring 1 ring_pixels.
Proof.
  split; [repeat constructor; cbn; lia|]. intro p. unfold ring_pixels, pixel. change (zprod [4; 4]) with 16. split.
  - intro H. assert (E : forallb (fun q => (0 <=? q) && (q <? 16) && (nth (Z.to_nat q) ring 0 =? 1)) [0; 1; 2; 4; 6; 8; 9; 10] = true) by reflexivity.
    rewrite forallb_forall in E. specialize (E p H). rewrite !andb_true_iff, Z.eqb_eq in E. lia.
  - intros [P V]. assert (E : forallb (fun q => negb (nth (Z.to_nat q) ring 0 =? 1) || existsb (Z.eqb q) [0; 1; 2; 4; 6; 8; 9; 10]) (zrange 0 16) = true) by reflexivity.
    rewrite forallb_forall in E. specialize (E p (proj2 (zrange_In 0 16 p) P)). rewrite V, Z.eqb_refl in E. apply existsb_exists in E. destruct E as (q & Q & QE).
    apply Z.eqb_eq in QE. subst. exact Q.
Qed.

Lemma quarter : forall x, cos (2 * PI * IZR x / 4) = cos (IZR x * (PI / 2))%R /\ sin (2 * PI * IZR x / 4) = sin (IZR x * (PI / 2))%R.
Proof. intro x. replace (2 * PI * IZR x / 4)%R with (IZR x * (PI / 2))%R by field. auto. Qed.

Lemma quarters : cos (2 * PI * 0 / 4) = 1%R /\ sin (2 * PI * 0 / 4) = 0%R /\ cos (2 * PI * 1 / 4) = 0%R /\ sin (2 * PI * 1 / 4) = 1%R /\
  cos (2 * PI * 2 / 4) = (-1)%R /\ sin (2 * PI * 2 / 4) = 0%R /\ cos (2 * PI * 3 / 4) = 0%R /\ sin (2 * PI * 3 / 4) = (-1)%R.
Proof.
  replace (2 * PI * 0 / 4)%R with 0%R by field. replace (2 * PI * 1 / 4)%R with (PI / 2)%R by field. replace (2 * PI * 2 / 4)%R with PI by field.
  replace (2 * PI * 3 / 4)%R with (3 * (PI / 2))%R by field.
  rewrite cos_0, sin_0, cos_PI2, sin_PI2, cos_PI, sin_PI, cos_3PI2, sin_3PI2. auto 10.
Qed.

Lemma ring_sums : forall k, (k < 2)%nat -> sum_cos 4 k (unit_mass (positions_of [4; 4] ring_pixels)) = 0%R /\ sum_sin 4 k (unit_mass (positions_of [4; 4] ring_pixels)) = 2%R.
Proof.
  destruct quarters as (C0 & S0 & C1 & S1 & C2 & S2 & C3 & S3).
  intros [|[|k]] K; [| |lia]; unfold sum_cos, sum_sin;
    change (positions_of [4; 4] ring_pixels) with [[0;0];[0;1];[0;2];[1;0];[1;2];[2;0];[2;1];[2;2]]%R;
    cbn [unit_mass map total fst snd coordinate nth]; unfold coordinate; cbn [nth]; rewrite ?C0, ?S0, ?C1, ?S1, ?C2, ?S2; lra.
Qed.

Lemma ring_center : forall k, (k < 2)%nat -> center_along true [4; 4] ring 1 k 1.
Proof.
  intros k K ps C. pose proof (carries_perm _ _ _ _ _ C ring_carries) as P.
  assert (N : positions_of [4; 4] ring_pixels <> []) by discriminate.
  assert (SD : side (map IZR [4; 4]) k = 4%R) by (destruct k as [|[|k]]; [reflexivity|reflexivity|lia]).
  destruct (center_circular (map IZR [4; 4]) (positions_of [4; 4] ring_pixels) k (positions_fit _ _) N K ltac:(rewrite SD; lra)) as (r & c & E & L & A & B & CM).
  rewrite SD in *. destruct (ring_sums k K) as [SC SS].
  assert (c = 1%R) as ->.
  { destruct quarters as (_ & _ & C1 & S1 & _).
    destruct (circular_mean_unique 4 k (unit_mass (positions_of [4; 4] ring_pixels)) c 1 ltac:(lra)) as [m M]; auto.
    - intros [_ H]. rewrite SS in H. lra.
    - exists 2%R. rewrite SC, SS, C1, S1. lra.
    - assert (m = 0) as -> by (assert (-2 < m < 2) by (split; apply lt_IZR; lra); assert (m <> 1) by (intros ->; lra); assert (m <> -1) by (intros ->; lra); lia). lra. }
  exists r. split; auto. rewrite <- E. apply center_perm, Permutation_map. exact P.
Qed.

Lemma ring_centre : centre_pixel true [4; 4] ring 1 5.
Proof.
  split; [unfold pixel; cbn; lia|]. intros k K. exists 1%R. split; [apply ring_center; exact K|].
  assert (E : nth k (coords [4; 4] 5) 0 = 1 /\ nth k [4; 4] 0 = 4) by (destruct k as [|[|k]]; [split; reflexivity|split; reflexivity|cbn in K; lia]).
  destruct E as [-> ->]. apply near_closest; [lia|]. left. replace (1 - 1)%R with 0%R by ring. rewrite Rabs_R0. lra.
Qed.

Lemma ring_labels : forall v, occurs [4; 4] ring v -> v = 0 \/ v = 1.
Proof.
  intros v (p & P & <-). assert (E : forallb (fun q => (zn ring q =? 0) || (zn ring q =? 1)) (zrange 0 16) = true) by reflexivity.
  rewrite forallb_forall in E. specialize (E p (proj2 (zrange_In 0 16 p) P)). rewrite orb_true_iff, !Z.eqb_eq in E. exact E.
Qed.

Lemma ring_lost : forall v, ~ counts true [4; 4] ring v.
Proof.
  intros v (N & [O _] & p & C & E & _). destruct (ring_labels v O) as [->| ->]; [congruence|].
  assert (p = 5). { apply (centre_unique true [4; 4] ring) with (v := 1); auto; [repeat constructor; lia|apply ring_centre]. } subst. discriminate E.
Qed.

Lemma shapes_3_4 : forall per, shapes per [3; 3] [4; 4].
Proof. intro per. split; [reflexivity|]. split; [cbn; lia|]. split; [repeat constructor; lia|]. split; [repeat constructor; lia|]. intros _. repeat constructor; cbn; lia. Qed.

Lemma concave_lost : exists shape img lab ce f e, clusters true shape img true = Ok lab /\ (exists p, pixel shape p /\ zn img p = 0) /\
  (exists p, pixel shape p /\ zn img p <> 0) /\ collapse true shape lab true = Ok ce /\ is_image shape f /\
  fresh true [3; 3] true true (CallW2c (mkimg shape lab) (mkimg shape ce) f None Bresenham) = Ok e /\ forall r, pixel [3; 3] r -> norm_at e r = 0%Qc.
Proof.
  set (f := mkimg [4; 4] (map zq ring)).
  destruct (nothing true true true [3; 3] [4; 4] Bresenham ring f) as (ce & e & EC & EF & R).
  - apply shapes_3_4.
  - repeat constructor; lia.
  - exact I.
  - discriminate.
  - reflexivity.
  - split; reflexivity.
  - apply ring_lost.
  - exists [4; 4], ring, ring, ce, f, e. split; [vm_compute; reflexivity|]. split; [exists 5; split; [unfold pixel; cbn; lia|reflexivity]|].
    split; [exists 0; split; [unfold pixel; cbn; lia|discriminate]|]. split; auto. split; [split; reflexivity|]. split; auto.
Qed.

(** ** No background *)
Lemma full_lost : exists shape img lab ce f e, clusters true shape img true = Ok lab /\
  (forall v p, v <> 0 -> occurs shape lab v -> centre_pixel true shape lab v p -> zn lab p = v) /\
  (exists p, pixel shape p /\ zn img p <> 0) /\ collapse true shape lab true = Ok ce /\ is_image shape f /\
  fresh true [3] true true (CallW2c (mkimg shape lab) (mkimg shape ce) f None Bresenham) = Ok e /\ forall r, pixel [3] r -> norm_at e r = 0%Qc.
Proof.
  set (f := mkimg [5] (map zq [1; 1; 1; 1; 1])).
  assert (ONE : forall p, pixel [5] p -> zn [1; 1; 1; 1; 1] p = 1).
  { intros p P. assert (E : forallb (fun q => zn [1; 1; 1; 1; 1] q =? 1) (zrange 0 5) = true) by reflexivity.
    rewrite forallb_forall in E. apply Z.eqb_eq. apply E. apply zrange_In. exact P. }
  destruct (nothing true true true [3] [5] Bresenham [1; 1; 1; 1; 1] f) as (ce & e & EC & EF & R).
  - split; [reflexivity|]. split; [cbn; lia|]. split; [repeat constructor; lia|]. split; [repeat constructor; lia|]. intros _. repeat constructor; cbn; lia.
  - repeat constructor; lia.
  - exact I.
  - discriminate.
  - reflexivity.
  - split; reflexivity.
  - intros v (_ & [(p & P & V) (u & (q & Q & U) & LT)] & _). rewrite ONE in V, U by auto. lia.
  - exists [5], [1; 1; 1; 1; 1], [1; 1; 1; 1; 1], ce, f, e. split; [vm_compute; reflexivity|]. split; [intros v p _ (q & Q & <-) [P _]; rewrite !ONE by auto; reflexivity|].
    split; [exists 0; split; [unfold pixel; cbn; lia|discriminate]|]. split; auto. split; [split; reflexivity|]. split; auto.
Qed.

(** ** Two clusters with the same center *)
Definition hook : list Z :=
  [0;0;0;0;0;0;0;1;0;0;0;0;0;0;0;
   2;2;2;2;2;0;0;1;0;0;2;2;2;2;2;
   0;0;0;2;0;1;1;1;1;1;0;2;0;0;0;
   0;0;0;2;0;0;0;0;0;0;0;2;0;0;0;
   0;0;0;2;2;2;2;2;2;2;2;2;0;0;0].

Definition mean_pixelb (shape labels : list Z) (v p : Z) : bool :=
  (0 <=? p) && (p <? zprod shape) &&
  forallb (fun k => let n := lenZ (having shape labels v) in
      let d := 2 * Z.abs (n * nth k (coords shape p) 0 - sum_along shape labels v k) in
      (d <? n) || ((d =? n) && Z.even (nth k (coords shape p) 0))) (seq 0 (length shape)).

Lemma mean_pixelb_ok : forall shape labels v p, mean_pixelb shape labels v p = true -> mean_pixel shape labels v p.
Proof.
  intros shape labels v p H. unfold mean_pixelb in H. rewrite !andb_true_iff in H. destruct H as [[H1 H2] H3]. split; [unfold pixel; lia|].
  intros k K. rewrite forallb_forall in H3. specialize (H3 k). cbv zeta in *. rewrite orb_true_iff, andb_true_iff, Z.ltb_lt, Z.eqb_eq in H3. apply H3. apply in_seq. lia.
Qed.

Lemma hook_occurs : forall v, occurs [5; 15] hook v -> v = 0 \/ v = 1 \/ v = 2.
Proof.
  intros v (p & P & <-). assert (E : forallb (fun q => (zn hook q =? 0) || ((zn hook q =? 1) || (zn hook q =? 2))) (zrange 0 75) = true) by reflexivity.
  rewrite forallb_forall in E. specialize (E p (proj2 (zrange_In 0 75 p) P)). rewrite !orb_true_iff, !Z.eqb_eq in E. exact E.
Qed.

Lemma hook_centres : centre_pixel false [5; 15] hook 1 37 /\ centre_pixel false [5; 15] hook 2 37.
Proof.
  assert (HF : Forall (fun n => 1 <= n) [5; 15]) by (repeat constructor; lia).
  split; apply mean_centre; auto; try discriminate; try reflexivity.
  - exists 7. split; [unfold pixel; cbn; lia|reflexivity].
  - apply mean_pixelb_ok. reflexivity.
  - exists 15. split; [unfold pixel; cbn; lia|reflexivity].
  - apply mean_pixelb_ok. reflexivity.
Qed.

Lemma hook_lost : forall v, ~ counts false [5; 15] hook v.
Proof.
  assert (HF : Forall (fun n => 1 <= n) [5; 15]) by (repeat constructor; lia). destruct hook_centres as [C1 C2].
  assert (O0 : occurs [5; 15] hook 0) by (exists 0; split; [unfold pixel; cbn; lia|reflexivity]).
  intros v (N & [O _] & p & C & E & M). assert (p = 37).
  { destruct (hook_occurs v O) as [->|[->| ->]]; [congruence|eapply (centre_unique false [5; 15] hook); eauto; reflexivity|eapply (centre_unique false [5; 15] hook); eauto; reflexivity]. }
  subst p. assert (v = 1) by (rewrite <- E; reflexivity). subst v.
  assert (2 <= 1); [|lia]. apply M; [|exact C2]. split; [exists 15; split; [unfold pixel; cbn; lia|reflexivity]|]. exists 0. split; [exact O0|lia].
Qed.

Lemma overwritten : exists shape img lab ce f e p, clusters true shape img false = Ok lab /\ (exists p, pixel shape p /\ zn img p = 0) /\
  centre_pixel false shape lab 1 p /\ zn lab p = 1 /\ collapse true shape lab false = Ok ce /\ is_image shape f /\
  fresh true [3; 3] false true (CallW2c (mkimg shape lab) (mkimg shape ce) f None Bresenham) = Ok e /\ forall r, pixel [3; 3] r -> norm_at e r = 0%Qc.
Proof.
  set (f := mkimg [5; 15] (map zq hook)).
  destruct (nothing true false true [3; 3] [5; 15] Bresenham hook f) as (ce & e & EC & EF & R).
  - split; [reflexivity|]. split; [cbn; lia|]. split; [repeat constructor; lia|]. split; [repeat constructor; lia|]. discriminate.
  - repeat constructor; lia.
  - exact I.
  - discriminate.
  - reflexivity.
  - split; reflexivity.
  - apply hook_lost.
  - exists [5; 15], hook, hook, ce, f, e, 37. split; [vm_compute; reflexivity|]. split; [exists 0; split; [unfold pixel; cbn; lia|reflexivity]|].
    split; [apply hook_centres|]. split; [reflexivity|]. split; auto. split; [split; reflexivity|]. split; auto.
Qed.
