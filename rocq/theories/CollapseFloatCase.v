(** * CollapseFloatCase: a cluster around the first pixel of a periodic image of eight pixels (C133, proofs only) *)

From Coq Require Import ZArith QArith Qreals Reals Ratan List Bool Lia Lra Psatz Permutation.
From Flocq Require Import Core Relative BinarySingleNaN.
From Verif Require Import Base BaseLemmas SpecCluster Cluster ClusterGeom Center SpecCenter CenterProofs CenterTop CenterLabels Double SpecDouble DoubleProofs DoubleError CirclesFloat CirclesFloatGrid
  CenterFloat SpecCenterFloat CenterFloatSums CenterFloatTrig CenterFloatTop CenterFloatBox Collapse SpecCollapse CollapseProofs CollapseCase CollapseEdge CollapseFloat SpecCollapseFloat CollapseFloatTop.
Import ListNotations.
Open Scope R_scope.

Local Notation rnd := (round radix2 (FLT_exp (-1074) 53) ZnearestE).
Local Notation u := (bpow radix2 (-53)).
Local Notation eps := (bpow radix2 (-52)).

(** ** Sums of multiples of 2^-53 *)
Definition grid (x : double) (n : Z) : Prop := finite x /\ val x = IZR n * bpow radix2 (-53).

Fixpoint zup (l : list Z) : Z := match l with [] => 0%Z | n :: t => (Z.max 0 n + zup t)%Z end.
Fixpoint zdown (l : list Z) : Z := match l with [] => 0%Z | n :: t => (Z.max 0 (- n) + zdown t)%Z end.

Lemma zsum_app : forall a b, zsum (a ++ b) = (zsum a + zsum b)%Z.
Proof. induction a as [|x a IH]; intros b; cbn; auto. rewrite IH. lia. Qed.
Lemma zup_app : forall a b, zup (a ++ b) = (zup a + zup b)%Z.
Proof. induction a as [|x a IH]; intros b; cbn [zup app]; [lia|]. rewrite IH. lia. Qed.
Lemma zdown_app : forall a b, zdown (a ++ b) = (zdown a + zdown b)%Z.
Proof. induction a as [|x a IH]; intros b; cbn [zdown app]; [lia|]. rewrite IH. lia. Qed.
Lemma zup_sum : forall a, (zsum a = zup a - zdown a /\ 0 <= zup a /\ 0 <= zdown a)%Z.
Proof. induction a as [|x a IH]; cbn [zup zdown zsum]; lia. Qed.
Lemma zsums_perm : forall a b, Permutation a b -> zup a = zup b /\ zdown a = zdown b.
Proof. intros a b H. induction H; cbn [zup zdown]; lia. Qed.

Lemma grid_plus : forall x y m n, grid x m -> grid y n -> (Z.abs (m + n) <= 2 ^ 53)%Z -> grid (dplus x y) (m + n).
Proof.
  intros x y m n [F1 V1] [F2 V2] H. pose proof (Bplus_correct 53 1024 precision exponent mode_NE x y F1 F2) as Q.
  change (SpecFloat.fexp 53 1024) with (FLT_exp (-1074) 53) in Q. change (round_mode mode_NE) with ZnearestE in Q.
  assert (E : B2R x + B2R y = IZR (m + n) * bpow radix2 (-53)) by (unfold val in *; rewrite V1, V2, plus_IZR; ring).
  assert (G : rnd (B2R x + B2R y) = IZR (m + n) * bpow radix2 (-53)).
  { rewrite E. destruct (Z.eq_dec (Z.abs (m + n)) (2 ^ 53)) as [T|T].
    - apply round_generic; [apply valid_rnd_N|]. assert (C : (m + n = 2 ^ 53 \/ m + n = - 2 ^ 53)%Z) by lia.
      replace (IZR (m + n) * bpow radix2 (-53)) with (IZR (Z.sgn (m + n)) * bpow radix2 0).
      2:{ destruct C as [-> | ->]; cbn; lra. }
      change (IZR (Z.sgn (m + n)) * bpow radix2 0) with (F2R (Float radix2 (Z.sgn (m + n)) 0)). apply generic_format_FLT. exists (Float radix2 (Z.sgn (m + n)) 0); [reflexivity| |cbn; lia].
      cbn [Fnum]. change (radix_val radix2 ^ 53)%Z with (2 ^ 53)%Z. lia.
    - apply round_generic; [apply valid_rnd_N|]. change (IZR (m + n) * bpow radix2 (-53)) with (F2R (Float radix2 (m + n) (-53))). apply generic_format_FLT.
      exists (Float radix2 (m + n) (-53)); [reflexivity| |cbn; lia]. cbn [Fnum]. change (radix_val radix2 ^ 53)%Z with (2 ^ 53)%Z. lia. }
  assert (B : Rabs (B2R x + B2R y) <= bpow radix2 1000).
  { rewrite E, Rabs_mult, <- abs_IZR, (Rabs_pos_eq (bpow radix2 (-53))) by apply bpow_ge_0. apply IZR_le in H.
    apply Rle_trans with (IZR (2 ^ 53) * bpow radix2 (-53)); [apply Rmult_le_compat_r; [apply bpow_ge_0|exact H]|].
    change (IZR (2 ^ 53)) with (bpow radix2 53). rewrite <- bpow_plus. apply bpow_le. lia. }
  rewrite below in Q by exact B. destruct Q as (Q1 & Q2 & _). split; [exact Q2|]. unfold val, dplus. rewrite Q1. exact G.
Qed.

Lemma adds_grid : forall l s, adds l s -> forall ns, Forall2 grid l ns -> (zup ns <= 2 ^ 53)%Z -> (zdown ns <= 2 ^ 53)%Z -> grid s (zsum ns).
Proof.
  intros l s H. induction H as [|x|l1 l2 l x y H1 IH1 H2 IH2 P]; intros ns F B D.
  - inversion F; subst. split; [reflexivity|]. cbn. lra.
  - inversion F; subst. inversion H3; subst. cbn [zsum]. rewrite Z.add_0_r. assumption.
  - destruct (Permutation_Forall2 P F) as (ns' & P' & F'). destruct (zsums_perm _ _ P') as [E1 E2]. destruct (zup_sum ns) as [E _]. destruct (zup_sum ns') as [E' _].
    replace (zsum ns) with (zsum ns') by lia. rewrite E1 in B. rewrite E2 in D.
    apply Forall2_app_inv_l in F'. destruct F' as (n1 & n2 & F1 & F2 & ->). rewrite zsum_app. rewrite zup_app in B. rewrite zdown_app in D. pose proof (zup_sum n1). pose proof (zup_sum n2).
    apply grid_plus; [apply IH1; [exact F1|lia|lia]|apply IH2; [exact F2|lia|lia]|lia].
Qed.

(** Rounding between a half and one. *)
Lemma rnd_unit : forall x, / 2 <= x < 1 -> rnd x = IZR (ZnearestE (x * bpow radix2 53)) * bpow radix2 (-53).
Proof.
  intros x H. assert (M : mag radix2 x = 0%Z :> Z). { apply mag_unique. rewrite Rabs_pos_eq by lra. change (bpow radix2 (0 - 1)) with (/ 2). change (bpow radix2 0) with 1. lra. }
  assert (C : cexp radix2 (FLT_exp (-1074) 53) x = (-53)%Z) by (unfold cexp; rewrite M; reflexivity).
  unfold round, scaled_mantissa. rewrite C. reflexivity.
Qed.

Lemma nearest_le : forall x n, x < IZR n + / 2 -> (ZnearestE x <= n)%Z.
Proof.
  intros x n H. apply Z.lt_succ_r. apply lt_IZR. pose proof (nearest_near x) as E. apply Rabs_le_inv in E. unfold Z.succ. rewrite plus_IZR. lra.
Qed.
Lemma nearest_ge : forall x n, IZR n - / 2 < x -> (n <= ZnearestE x)%Z.
Proof.
  intros x n H. apply Z.lt_succ_r. apply lt_IZR. pose proof (nearest_near x) as E. apply Rabs_le_inv in E. unfold Z.succ. rewrite plus_IZR. lra.
Qed.

(** ** Pi and the angle of 45 degrees *)
Lemma pi_above : / 2 * / 4503599627370496 <= PI - B2R lit_pi.
Proof.
  destruct (PI_2_3_7_ineq 10) as [L _]. rewrite <- qsum_value in L.
  assert (L2 : Q2R (7074237752028440 # 9007199254740992) + / 4 * / 2 * Q2R (1 # 4503599627370496) <= Q2R (qsum (S (2 * 10)))).
  { replace (/ 4 * / 2) with (Q2R (1 # 8)) by (unfold Q2R; cbn; lra). rewrite <- Qreals.Q2R_mult, <- Qreals.Q2R_plus. apply Qle_Rle.
    vm_compute. intros H; discriminate. }
  destruct pi_value as [_ V]. rewrite V. change (bpow radix2 (-51)) with (/ 2251799813685248).
  unfold Q2R at 1 2 in L2. cbn [Qnum Qden] in L2. lra.
Qed.

Definition h : R := sin (PI / 4).
Lemma h_cos : cos (PI / 4) = h.
Proof. unfold h. rewrite sin_PI4, cos_PI4. reflexivity. Qed.
Lemma h_square : h * h = / 2.
Proof. pose proof (sin2_cos2 (PI / 4)) as Q. unfold Rsqr in Q. rewrite h_cos in Q. fold h in Q. lra. Qed.
Lemma h_pos : 0 < h.
Proof. unfold h. pose proof pi_range. apply sin_gt_0; lra. Qed.
Lemma h_bounds : 6369051672525772564 / 1000 <= h * 9007199254740992 <= 6369051672525772565 / 1000.
Proof. pose proof h_square as Q. pose proof h_pos as P. split; apply Rnot_lt_le; intros L; nra. Qed.
Lemma h_range : 7 / 10 < h < 8 / 10.
Proof. pose proof h_bounds. lra. Qed.

Lemma sin_half : forall d, 0 <= d <= / 2 -> / 2 * d <= sin d <= d.
Proof.
  intros d H. pose proof (sin_lipschitz 0 d) as S. rewrite sin_0, !Rminus_0_r, (Rabs_pos_eq d) in S by lra. apply Rabs_le_inv in S. split; [|lra].
  destruct (Req_dec d 0) as [->|NZ]; [rewrite sin_0; lra|].
  destruct (MVT_abs sin cos 0 d) as (c & EC & EC2 & EC3); [intros; apply derivable_pt_lim_sin|]. rewrite sin_0, !Rminus_0_r in EC.
  assert (0 <= sin d) by (apply sin_ge_0; pose proof pi_range; lra).
  rewrite (Rabs_pos_eq (sin d)), (Rabs_pos_eq d) in EC by lra. rewrite Rmin_left in EC2 by lra. rewrite Rmax_right in EC3 by lra.
  assert (/ 2 <= cos c) by (destruct (cos_near_one c); lra). rewrite Rabs_pos_eq in EC by lra. rewrite EC. nra.
Qed.

(** ** The three pixels 0, 1 and 7 of eight *)
Definition th (k : Z) : double := ddiv (dtimes two_pi (dz k)) (dz 8).

Lemma th0 : is_finite (th 0) = true /\ B2R (th 0) = 0.
Proof. assert (E : B2SF (th 0) = SpecFloat.S754_zero false) by (vm_compute; reflexivity). destruct (th 0) as [s|s| |s m e B]; cbn in E; try discriminate. split; reflexivity. Qed.
Lemma th1 : is_finite (th 1) = true /\ B2R (th 1) = B2R lit_pi / 4.
Proof.
  assert (E : B2SF (th 1) = SpecFloat.S754_finite false 7074237752028440 (-53)) by (vm_compute; reflexivity). destruct (literal _ _ _ E) as [F V]. split; [exact F|].
  destruct pi_value as [_ W]. rewrite V, W. change (bpow radix2 (-51)) with (/ 2251799813685248). change (bpow radix2 (-53)) with (/ 9007199254740992). lra.
Qed.
Lemma th7 : is_finite (th 7) = true /\ B2R (th 7) = 7 / 4 * B2R lit_pi.
Proof.
  assert (E : B2SF (th 7) = SpecFloat.S754_finite false 6189958033024885 (-50)) by (vm_compute; reflexivity). destruct (literal _ _ _ E) as [F V]. split; [exact F|].
  destruct pi_value as [_ W]. rewrite V, W. change (bpow radix2 (-51)) with (/ 2251799813685248). change (bpow radix2 (-50)) with (/ 1125899906842624). lra.
Qed.

Definition dl : R := PI - B2R lit_pi.
Lemma dl_range : / 9007199254740992 <= dl <= 6 / 5 * / 9007199254740992.
Proof. pose proof pi_above. pose proof pi_tight. unfold dl. lra. Qed.

Lemma sine1 : rnd (sin (B2R (th 1))) = 6369051672525772 * bpow radix2 (-53).
Proof.
  destruct th1 as [_ ->]. pose proof dl_range as D. pose proof h_bounds as HB. pose proof h_range as HR.
  replace (B2R lit_pi / 4) with (PI / 4 - dl / 4) by (unfold dl; field). rewrite sin_minus, h_cos. fold h.
  set (d := dl / 4). assert (DR : / 4 * / 9007199254740992 <= d <= 3 / 10 * / 9007199254740992) by (unfold d; lra).
  destruct (sin_half d ltac:(lra)) as [S1 S2]. pose proof (COS_bound d) as C1. assert (C2 : 1 - d <= cos d) by (destruct (cos_near_one d); lra).
  assert (C3 : 1 - d * d <= cos d).
  { pose proof (sin2_cos2 d) as Q. unfold Rsqr in Q. assert (0 <= cos d) by lra. nra. }
  assert (L : h * cos d - h * sin d <= h - h * / 2 * d) by nra.
  assert (G : h - h * (d + d * d) <= h * cos d - h * sin d) by nra.
  assert (d * d <= d * / 1000) by nra.
  assert (HD : h * d >= 7 / 10 * (/ 4 * / 9007199254740992)) by nra. assert (HD2 : h * d <= 8 / 10 * (3 / 10 * / 9007199254740992)) by nra.
  assert (HD3 : h * (d * d) <= h * d * / 1000) by nra.
  rewrite rnd_unit by lra. f_equal. f_equal. change (bpow radix2 53) with 9007199254740992.
  apply Z.le_antisymm; [apply nearest_le|apply nearest_ge]; lra.
Qed.

Lemma sine7 : exists n, (6369051672525773 <= n <= 6369051672525775)%Z /\ rnd (sin (B2R (th 7))) = IZR (- n) * bpow radix2 (-53).
Proof.
  destruct th7 as [_ ->]. pose proof dl_range as D. pose proof h_bounds as HB. pose proof h_range as HR.
  set (d := 7 / 4 * dl). assert (DR : 7 / 4 * / 9007199254740992 <= d <= 21 / 10 * / 9007199254740992) by (unfold d; lra).
  replace (7 / 4 * B2R lit_pi) with (- (PI / 4 + d) + 2 * INR 1 * PI) by (unfold d, dl; cbn; field).
  rewrite sin_period, sin_neg, sin_plus, h_cos. fold h. rewrite rnd_opp.
  destruct (sin_half d ltac:(lra)) as [S1 S2]. pose proof (COS_bound d) as C1.
  assert (C3 : 1 - d * d <= cos d).
  { pose proof (sin2_cos2 d) as Q. unfold Rsqr in Q. assert (C2 : 1 - d <= cos d) by (destruct (cos_near_one d); lra). assert (0 <= cos d) by lra. nra. }
  assert (d * d <= d * / 1000) by nra.
  assert (L : h <= h * cos d + h * sin d) by nra.
  assert (G : h * cos d + h * sin d <= h + h * d) by nra. assert (HD2 : h * d <= 8 / 10 * (21 / 10 * / 9007199254740992)) by nra.
  rewrite rnd_unit by lra. change (bpow radix2 53) with 9007199254740992. exists (ZnearestE ((h * cos d + h * sin d) * 9007199254740992)). split.
  - split; [apply nearest_ge|apply nearest_le]; lra.
  - rewrite opp_IZR. ring.
Qed.

Lemma small30 : forall x, 0 <= x <= 8 -> Rabs x <= bpow radix2 30.
Proof. intros x H. rewrite Rabs_pos_eq by lra. apply Rle_trans with (bpow radix2 3); [change (bpow radix2 3) with 8; lra|apply bpow_le; lia]. Qed.

Lemma rnd_close : forall x, Rabs x <= 4 -> Rabs (rnd x - x) <= / 1000.
Proof.
  intros x H. eapply Rle_trans; [apply rnd_error|]. change u with (/ 9007199254740992).
  assert (bpow radix2 (-1075) <= / 9007199254740992) by (change (/ 9007199254740992) with u; apply bpow_le; lia). lra.
Qed.

Lemma rnd_zero : rnd 0 = 0.
Proof. apply round_0. apply valid_rnd_N. Qed.

Lemma last_pixel : forall T, sums T -> correctly_rounded T ->
  exists c, fcenter T [dz 8] [[dz 0]; [dz 1]; [dz 7]] true = Ok [c] /\ is_finite c = true /\ 79 / 10 < B2R c < 81 / 10.
Proof.
  intros T HT [HCS HAT]. destruct th0 as [F0 V0]. destruct th1 as [F1 V1]. destruct th7 as [F7 V7].
  pose proof dl_range as D. pose proof pi_range as PR. pose proof lit_pi_range as LR. unfold val in LR.
  assert (UE : u = / 9007199254740992) by reflexivity.
  assert (TN : bpow radix2 (-1075) <= / 9007199254740992 * / 9007199254740992) by (rewrite <- UE, <- bpow_plus; apply bpow_le; lia).
  destruct (HCS (th 0) F0) as [[FC0 VC0] [FS0 VS0]]; [apply small30; lra|]. destruct (HCS (th 1) F1) as [[FC1 VC1] [FS1 VS1]]; [apply small30; lra|].
  destruct (HCS (th 7) F7) as [[FC7 VC7] [FS7 VS7]]; [apply small30; lra|].
  rewrite V0, cos_0 in VC0. rewrite V0, sin_0, rnd_zero in VS0. rewrite sine1 in VS1. destruct sine7 as (n & NR & EN). rewrite EN in VS7.
  (* the mean of the sines *)
  set (sn := [t_sin T (th 0); t_sin T (th 1); t_sin T (th 7)]). set (cs := [t_cos T (th 0); t_cos T (th 1); t_cos T (th 7)]).
  assert (GS : grid (t_sum T sn) (zsum [0; 6369051672525772; - n]%Z)).
  { apply (adds_grid sn _ (HT sn)).
    - unfold sn. constructor; [split; [exact FS0|unfold val; rewrite VS0; lra]|]. constructor; [split; [exact FS1|exact VS1]|]. constructor; [split; [exact FS7|exact VS7]|]. constructor.
    - cbn [zup]. lia.
    - cbn [zdown]. lia. }
  destruct GS as [FSum VSum]. cbn [zsum] in VSum. unfold val, finite in *.
  assert (DM : B2R (dz 3) = 3) by (apply (dz_value 3); lia).
  assert (YB : exists s, is_finite (fmean_of T sn) = true /\ B2R (fmean_of T sn) = - s /\ 0 < s <= 2 * / 9007199254740992).
  { unfold fmean_of. change (dz (lenZ sn)) with (dz 3). pose proof (Bdiv_correct 53 1024 precision exponent mode_NE (t_sum T sn) (dz 3)) as Q. rewrite DM in Q. specialize (Q ltac:(lra)).
    change (SpecFloat.fexp 53 1024) with (FLT_exp (-1074) 53) in Q. change (round_mode mode_NE) with ZnearestE in Q.
    set (y := B2R (t_sum T sn) / 3) in *.
    assert (YR : - / 9007199254740992 <= y <= - (/ 3 * / 9007199254740992)).
    { unfold y. rewrite VSum. change (bpow radix2 (-53)) with (/ 9007199254740992). assert (- 3 <= 0 + (6369051672525772 + (- n + 0)) <= - 1)%Z as [B1 B2] by lia.
      apply IZR_le in B1, B2. set (q := IZR _) in *. lra. }
    rewrite below in Q. 2:{ rewrite Rabs_left1 by lra. apply Rle_trans with 1; [lra|]. change 1 with (bpow radix2 0). apply bpow_le. lia. }
    destruct Q as (Q1 & Q2 & _). exists (- rnd y). unfold ddiv. rewrite Q1, Q2. split; [exact FSum|]. split; [ring|].
    pose proof (rnd_error y) as E. apply Rabs_le_inv in E. rewrite Rabs_left1, UE in E by lra. lra. }
  destruct YB as (s & FZ & VZ & SR).
  (* the mean of the cosines *)
  assert (C1 : 6 / 10 <= cos (B2R (th 1))).
  { rewrite V1. pose proof (cos_lipschitz (PI / 4) (B2R lit_pi / 4)) as L. rewrite h_cos in L. pose proof h_range. apply Rabs_le_inv in L. unfold dl in D.
    rewrite (Rabs_left1 (B2R lit_pi / 4 - PI / 4)) in L by lra. lra. }
  assert (C7 : 6 / 10 <= cos (B2R (th 7))).
  { rewrite V7. replace (7 / 4 * B2R lit_pi) with (- (PI / 4 + 7 / 4 * dl) + 2 * INR 1 * PI) by (unfold dl; cbn; field). rewrite cos_period, cos_neg.
    pose proof (cos_lipschitz (PI / 4) (PI / 4 + 7 / 4 * dl)) as L. rewrite h_cos in L. pose proof h_range. apply Rabs_le_inv in L.
    rewrite (Rabs_pos_eq (PI / 4 + 7 / 4 * dl - PI / 4)) in L by lra. lra. }
  assert (ONE : forall x, -1 <= x <= 1 -> Rabs (rnd x) <= 1).
  { intros x H. assert (R1 : rnd 1 = 1). { apply round_generic; [apply valid_rnd_N|]. change 1 with (bpow radix2 0). apply generic_format_bpow. cbn. lia. }
    apply Rabs_le. rewrite <- R1 at 1. rewrite <- R1 at 2. rewrite <- rnd_opp. split; apply rnd_mono; lra. }
  assert (XB : is_finite (fmean_of T cs) = true /\ / 2 <= B2R (fmean_of T cs)).
  { destruct (mean_error T cs 1 HT) as [FX EX].
    - discriminate.
    - repeat (apply Forall_cons; [assumption|]). apply Forall_nil.
    - cbn. lia.
    - split; [change 1 with (bpow radix2 0)|change 1 with (bpow radix2 0)]; apply bpow_le; lia.
    - intros v Hv. unfold val. destruct Hv as [<-|[<-|[<-|[]]]]; [rewrite VC0|rewrite VC1|rewrite VC7]; apply ONE; try lra; apply COS_bound.
    - split; [exact FX|]. unfold val, cs in EX. cbn [total length] in EX. rewrite VC0, VC1, VC7 in EX. apply Rabs_le_inv in EX.
      pose proof (COS_bound (B2R (th 1))) as B1. pose proof (COS_bound (B2R (th 7))) as B7.
      assert (E0 : Rabs 1 <= 4) by (rewrite Rabs_pos_eq; lra). apply rnd_close in E0. apply Rabs_le_inv in E0.
      assert (E1 : Rabs (cos (B2R (th 1))) <= 4) by (apply Rabs_le; lra). apply rnd_close in E1. apply Rabs_le_inv in E1.
      assert (E7 : Rabs (cos (B2R (th 7))) <= 4) by (apply Rabs_le; lra). apply rnd_close in E7. apply Rabs_le_inv in E7.
      assert (EP : eps = / 4503599627370496) by reflexivity. rewrite EP in EX.
      cbn [INR] in EX. fold cs in EX. lra. }
  destruct XB as [FX XB]. set (X := fmean_of T cs) in *. set (Z := fmean_of T sn) in *.
  set (t := - atan (s / B2R X) + PI).
  assert (QB : 0 < s / B2R X <= 4 * / 9007199254740992).
  { split; [apply Rdiv_lt_0_compat; lra|]. apply Rmult_le_reg_r with (B2R X); [lra|]. unfold Rdiv. rewrite Rmult_assoc, Rinv_l, Rmult_1_r by lra. nra. }
  assert (AB : 0 <= atan (s / B2R X) <= 4 * / 9007199254740992).
  { pose proof (atan_le (s / B2R X)) as A. rewrite (Rabs_pos_eq (s / B2R X)) in A by lra. apply Rabs_le_inv in A. pose proof (atan_nonneg (s / B2R X) ltac:(lra)). lra. }
  assert (AN : angle (B2R (Bopp Z)) (B2R (Bopp X)) t).
  { rewrite !B2R_Bopp, VZ. split; [unfold t; lra|]. set (a := atan (s / B2R X)) in *.
    pose proof (atan_bound (s / B2R X)) as B. fold a in B. assert (C : 0 < cos a) by (apply cos_gt_0; lra).
    exists (B2R X / cos a). split; [apply Rdiv_lt_0_compat; lra|]. unfold t. rewrite neg_cos, neg_sin, cos_neg, sin_neg. split; [field; lra|].
    assert (TA : tan a = s / B2R X) by apply tan_atan. unfold tan in TA.
    replace (B2R X / cos a * - - sin a) with (B2R X * (sin a / cos a)) by (field; lra). rewrite TA. field. lra. }
  destruct (HAT (Bopp Z) (Bopp X) t) as [FT VT].
  { rewrite is_finite_Bopp. exact FZ. } { rewrite is_finite_Bopp. exact FX. } { rewrite B2R_Bopp, VZ. lra. } { exact AN. }
  set (a := t_atan2 T (Bopp Z) (Bopp X)) in *.
  assert (LB : 0 <= B2R a <= B2R lit_pi). { rewrite VT, <- rnd_pi. split; [apply Rle_trans with (rnd 0); [rewrite rnd_zero; lra|]|]; apply rnd_mono; unfold t; lra. }
  destruct (position_error (dz 8) a t) as [FC EC].
  - apply (dz_value 8). lia.
  - exact FT.
  - unfold val. replace (B2R (dz 8)) with 8 by (symmetry; apply (dz_value 8); lia). change 8 with (bpow radix2 3). split; apply bpow_le; lia.
  - unfold val. rewrite VT. eapply Rle_trans; [apply rnd_error|]. rewrite UE. rewrite (Rabs_pos_eq t) by (unfold t; lra). unfold t in *. lra.
  - unfold t. lra.
  - unfold val. rewrite Rabs_pos_eq; lra.
  - exists (ddiv (dtimes (dz 8) (dplus a lit_pi)) two_pi). split; [|split; [exact FC|]].
    + unfold fcenter. cbn [frows_fit forallb length Nat.eqb andb negb fno_positions fall_axes fcolumn map nth]. unfold faxis_center. cbn [negb map]. reflexivity.
    + set (c := ddiv _ _) in *. unfold val in EC. replace (B2R (dz 8)) with 8 in EC by (symmetry; apply (dz_value 8); lia). rewrite UE in EC. apply Rabs_le_inv in EC.
      assert (E8 : 8 * (t + PI) / (2 * PI) = 8 - 4 * (atan (s / B2R X) / PI)) by (unfold t; field; lra). rewrite E8 in EC.
      assert (0 <= atan (s / B2R X) / PI <= 4 * / 9007199254740992).
      { split; [apply Rmult_le_pos; [lra|left; apply Rinv_0_lt_compat; lra]|]. apply Rmult_le_reg_r with PI; [lra|]. unfold Rdiv. rewrite Rmult_assoc, Rinv_l, Rmult_1_r by lra. nra. }
      lra.
Qed.

(** ** The same with real numbers *)
Lemma zero_angle : forall x, 0 <= x < 2 * PI -> sin x = 0 -> 0 < cos x -> x = 0.
Proof.
  intros x [X1 X2] S C. pose proof PI_RGT_0 as P. destruct (Req_dec x 0) as [|N]; auto. exfalso.
  destruct (Rtotal_order x PI) as [L|[E|G]].
  - pose proof (sin_gt_0 x ltac:(lra) L). lra.
  - rewrite E, cos_PI in C. lra.
  - pose proof (sin_lt_0 x G X2). lra.
Qed.
Lemma straight_angle : forall x, 0 <= x < 2 * PI -> sin x = 0 -> cos x < 0 -> x = PI.
Proof.
  intros x [X1 X2] S C. pose proof PI_RGT_0 as P. destruct (Req_dec x 0) as [E|N]; [rewrite E, cos_0 in C; lra|].
  destruct (Rtotal_order x PI) as [L|[E|G]]; auto; exfalso.
  - pose proof (sin_gt_0 x ltac:(lra) L). lra.
  - pose proof (sin_lt_0 x G X2). lra.
Qed.

Lemma eighths : cos (2 * PI * 0 / 8) = 1 /\ sin (2 * PI * 0 / 8) = 0 /\ cos (2 * PI * 1 / 8) = h /\ sin (2 * PI * 1 / 8) = h /\
  cos (2 * PI * 7 / 8) = h /\ sin (2 * PI * 7 / 8) = - h.
Proof.
  replace (2 * PI * 0 / 8) with 0 by field. replace (2 * PI * 1 / 8) with (PI / 4) by field.
  replace (2 * PI * 7 / 8) with (- (PI / 4) + 2 * INR 1 * PI) by (cbn; field).
  rewrite cos_0, sin_0, cos_period, sin_period, cos_neg, sin_neg, h_cos. fold h. repeat split; reflexivity.
Qed.

Open Scope Z_scope.
Definition around : list Z := [1; 1; 0; 0; 0; 0; 0; 1].

Lemma carries_small : forall n labels v ps, NoDup ps ->
  forallb (fun q => (0 <=? q) && (q <? n) && (nth (Z.to_nat q) labels 0 =? v)) ps = true ->
  forallb (fun q => negb (nth (Z.to_nat q) labels 0 =? v) || existsb (Z.eqb q) ps) (zrange 0 n) = true -> carries [n] labels v ps.
Proof.
  intros n labels v ps ND E1 E2. split; [exact ND|]. intro p. unfold pixel. cbn [zprod]. rewrite Z.mul_1_r. split.
  - intro H. rewrite forallb_forall in E1. specialize (E1 p H). rewrite !andb_true_iff, Z.eqb_eq in E1. lia.
  - intros [P V]. rewrite forallb_forall in E2. specialize (E2 p (proj2 (zrange_In 0 n p) P)). rewrite V, Z.eqb_refl in E2. apply existsb_exists in E2. destruct E2 as (q & Q & QE).
    apply Z.eqb_eq in QE. subst. exact Q.
Qed.

Lemma around_carries : carries [8] around 1 [0; 1; 7].
Proof. apply carries_small; [|reflexivity|reflexivity]. repeat constructor; cbn; lia. Qed.

Lemma around_center : center_along true [8] around 1 0 0%R.
Proof.
  assert (N : positions_of [8] [0; 1; 7] <> []) by discriminate.
  destruct (center_circular (map IZR [8]) (positions_of [8] [0; 1; 7]) 0 (positions_fit _ _) N ltac:(cbn; lia) ltac:(cbn; lra)) as (r & a & E & L & A & B & (rho & R0 & CC & SS)).
  change (side (map IZR [8]) 0) with 8%R in *. destruct eighths as (C0 & S0 & C1 & S1 & C7 & S7). pose proof h_pos as HP. pose proof PI_RGT_0 as P.
  unfold sum_cos, sum_sin in CC, SS. change (positions_of [8] [0; 1; 7]) with [[0]; [1]; [7]]%R in CC, SS.
  cbn [unit_mass map total fst snd] in CC, SS. unfold coordinate in CC, SS. cbn [nth] in CC, SS. rewrite ?C0, ?C1, ?C7 in CC. rewrite ?S0, ?S1, ?S7 in SS.
  assert (RP : (0 < rho)%R) by (destruct R0 as [|<-]; lra).
  assert (X : (0 <= 2 * PI * a / 8 < 2 * PI)%R) by (split; nra).
  assert (Z : (2 * PI * a / 8 = 0)%R).
  { apply zero_angle; [exact X| |]; [apply (Rmult_eq_reg_l rho); lra|apply (Rmult_lt_reg_l rho); lra]. }
  assert (a = 0)%R as -> by (apply (Rmult_eq_reg_l PI); lra).
  intros ps C. exists r. split; auto. rewrite <- E. apply center_perm, Permutation_map. eapply carries_perm; [exact C|apply around_carries].
Qed.

(** From a pixel of the center to the whole result, with one label besides zero. *)
Lemma one_label : forall asrt per n labels q, 1 <= n -> lenZ labels = zprod [n] -> Forall (fun v => v = 0 \/ v = 1) labels -> In 0 labels -> In 1 labels ->
  centre_pixel per [n] labels 1 q -> exists ce, collapse asrt [n] labels per = Ok ce /\ lenZ ce = n /\ forall p, pixel [n] p -> zn ce p = if p =? q then 1 else 0.
Proof.
  intros asrt per n labels q N L01 F I0 I1 CQ. assert (HF : Forall (fun n => 1 <= n) [n]) by (constructor; auto).
  destruct (collapse_ok asrt per [n] labels ltac:(discriminate) HF L01) as (ce & EC & LC & K). exists ce. split; [exact EC|]. split; [cbn [zprod] in LC; lia|].
  assert (OI : forall v, occurs [n] labels v <-> In v labels) by (apply occurs_In; exact L01).
  assert (N1 : named [n] labels 1) by (split; [apply OI; exact I1|exists 0; split; [apply OI; exact I0|lia]]).
  assert (ON : forall w, named [n] labels w -> w = 1).
  { intros w [W1 (x & X1 & X2)]. apply OI in W1, X1. rewrite Forall_forall in F. destruct (F w W1), (F x X1); lia. }
  intros p P. destruct (K p P) as [K1 K2]. destruct (Z.eqb_spec p q) as [->|NE].
  - apply K1; auto. intros w W _. rewrite (ON w W). lia.
  - apply K2. intros w W CW. rewrite (ON w W) in CW. apply NE. apply (centre_unique per [n] labels HF L01 1 p q); [apply OI; exact I1|exact CW|exact CQ].
Qed.

Lemma zn_ext : forall (l m : list Z), lenZ l = lenZ m -> (forall p, 0 <= p < lenZ l -> zn l p = zn m p) -> l = m.
Proof.
  intros l m L H. apply (nth_ext _ _ 0 0); [unfold lenZ in L; lia|]. intros i I. specialize (H (Z.of_nat i)). unfold zn in H. rewrite Nat2Z.id in H. apply H. unfold lenZ. lia.
Qed.

Lemma around_real : forall asrt, collapse asrt [8] around true = Ok [1; 0; 0; 0; 0; 0; 0; 0].
Proof.
  intros asrt. destruct (one_label asrt true 8 around 0) as (ce & -> & L & K).
  - lia.
  - reflexivity.
  - unfold around. repeat (apply Forall_cons; [lia|]). apply Forall_nil.
  - cbn. auto.
  - cbn. auto.
  - split; [unfold pixel; cbn; lia|]. intros [|k] H; [|cbn in H; lia]. exists 0%R. split; [exact around_center|]. cbn [nth coords zprod]. rewrite Z.div_1_r.
    split; [lia|]. intros y Y NE. left. assert (1 <= y) as B by lia. apply IZR_le in B. rewrite Rminus_0_r, Rabs_R0, Rabs_left; lra.
  - f_equal. apply zn_ext; [rewrite L; reflexivity|]. rewrite L. intros p P. rewrite K by (unfold pixel; cbn; lia).
    assert (E : forallb (fun p => (if p =? 0 then 1 else 0) =? zn [1; 0; 0; 0; 0; 0; 0; 0] p) (zrange 0 8) = true) by reflexivity.
    rewrite forallb_forall in E. apply Z.eqb_eq, E, zrange_In, P.
Qed.

Lemma around_float : forall T asrt, sums T -> correctly_rounded T -> fcollapse T asrt [8] around true = Ok [0; 0; 0; 0; 0; 0; 0; 1].
Proof.
  intros T asrt HT HC. destruct (last_pixel T HT HC) as (c & E & F & B).
  assert (NM : names_of around = [1]) by reflexivity.
  assert (RI : frint c = Ok 8).
  { assert (N8 : ZnearestE (B2R c) = 8) by (apply Z.le_antisymm; [apply nearest_le|apply nearest_ge]; lra). unfold frint. rewrite F, N8. reflexivity. }
  unfold fcollapse. rewrite NM. unfold flabels_centers. replace (assertb asrt (Nat.ltb 0 (length [8]))) with (Ok tt) by (destruct asrt; reflexivity). cbn [bind mapM].
  change (where_equal [8] around 1) with [[0]; [1]; [7]]. cbn [fto_double map fno_positions]. rewrite E. cbn [bind mapM]. unfold findex_of. cbn [mapM]. rewrite RI. cbn [bind]. reflexivity.
Qed.

Lemma moved_by_rounding : forall T asrt, sums T -> correctly_rounded T ->
  collapse asrt [8] around true = Ok [1; 0; 0; 0; 0; 0; 0; 0] /\ fcollapse T asrt [8] around true = Ok [0; 0; 0; 0; 0; 0; 0; 1].
Proof. intros T asrt HT HC. split; [apply around_real|apply around_float; auto]. Qed.

(** ** A steady cluster *)
Lemma dash_carries : carries [4] [0; 1; 1; 1] 1 [1; 2; 3].
Proof. apply carries_small; [|reflexivity|reflexivity]. repeat constructor; cbn; lia. Qed.

Lemma dash_sums : sum_cos 4 0 (unit_mass (positions_of [4] [1; 2; 3])) = (-1)%R /\ sum_sin 4 0 (unit_mass (positions_of [4] [1; 2; 3])) = 0%R.
Proof.
  destruct quarters as (C0 & S0 & C1 & S1 & C2 & S2 & C3 & S3).
  unfold sum_cos, sum_sin; change (positions_of [4] [1; 2; 3]) with [[1]; [2]; [3]]%R;
    cbn [unit_mass map total fst snd]; unfold coordinate; cbn [nth]; rewrite ?C1, ?S1, ?C2, ?S2, ?C3, ?S3. split; lra.
Qed.

Lemma dash_center : center_along true [4] [0; 1; 1; 1] 1 0 2%R.
Proof.
  assert (N : positions_of [4] [1; 2; 3] <> []) by discriminate. destruct dash_sums as [SC SS0]. pose proof PI_RGT_0 as P.
  destruct (center_circular (map IZR [4]) (positions_of [4] [1; 2; 3]) 0 (positions_fit _ _) N ltac:(cbn; lia) ltac:(cbn; lra)) as (r & a & E & L & A & B & (rho & R0 & CC & SS)).
  change (side (map IZR [4]) 0) with 4%R in *. rewrite SC in CC. rewrite SS0 in SS.
  assert (RP : (0 < rho)%R) by (destruct R0 as [|<-]; lra).
  assert (X : (0 <= 2 * PI * a / 4 < 2 * PI)%R) by (split; nra).
  assert (Z : (2 * PI * a / 4 = PI)%R).
  { apply straight_angle; [exact X| |]; [apply (Rmult_eq_reg_l rho); lra|apply (Rmult_lt_reg_l rho); lra]. }
  assert (a = 2)%R as -> by (apply (Rmult_eq_reg_l PI); lra).
  intros ps C. exists r. split; auto. rewrite <- E. apply center_perm, Permutation_map. eapply carries_perm; [exact C|apply dash_carries].
Qed.

Lemma dash_steady : steady [4] [0; 1; 1; 1] 1.
Proof.
  intros ps [|k] C K; [|cbn in K; lia]. assert (P : Permutation ps [1; 2; 3]) by (eapply carries_perm; [exact C|apply dash_carries]).
  assert (L : length ps = 3%nat) by (apply (Permutation_length P)).
  cbn [nth]. assert (CO : concentration 4 0 (unit_mass (positions_of [4] ps)) = (/ 3)%R).
  { unfold concentration. assert (Q : Permutation (unit_mass (positions_of [4] ps)) (unit_mass (positions_of [4] [1; 2; 3]))) by (unfold unit_mass, positions_of; do 2 apply Permutation_map; exact P).
    destruct (sum_perm 4 0 _ _ Q) as (-> & -> & ->). destruct dash_sums as [-> ->]. rewrite unit_total.
    replace (-1 * -1 + 0 * 0)%R with 1%R by lra. rewrite sqrt_1. change (length (positions_of [4] [1; 2; 3])) with 3%nat. cbn [INR]. lra. }
  unfold drift. cbn [nth]. rewrite CO, L. change (bpow radix2 (-46)) with (/ 70368744177664)%R. cbn [INR].
  split; [lra|]. exists 2%R. split; [exact dash_center|]. split; [lra|]. intros m.
  destruct (Z_le_gt_dec m 1) as [H|H].
  - apply IZR_le in H. rewrite Rabs_pos_eq; lra.
  - assert (2 <= m) as B by lia. apply IZR_le in B. rewrite Rabs_left; lra.
Qed.

Lemma dash_case : forall asrt, fcollapse exact_trig asrt [4] [0; 1; 1; 1] true = Ok [0; 0; 1; 0] /\ collapse asrt [4] [0; 1; 1; 1] true = Ok [0; 0; 1; 0].
Proof.
  intros asrt. assert (E : collapse asrt [4] [0; 1; 1; 1] true = Ok [0; 0; 1; 0]).
  { destruct (one_label asrt true 4 [0; 1; 1; 1] 2) as (ce & -> & L & K).
    - lia.
    - reflexivity.
    - repeat (apply Forall_cons; [lia|]). apply Forall_nil.
    - cbn. auto.
    - cbn. auto.
    - split; [unfold pixel; cbn; lia|]. intros [|k] H; [|cbn in H; lia]. exists 2%R. split; [exact dash_center|]. cbn [nth coords zprod]. rewrite Z.div_1_r.
      split; [lia|]. intros y Y NE. left. rewrite Rminus_eq_0, Rabs_R0. apply Rabs_pos_lt. intro Q. apply NE. apply eq_IZR. lra.
    - f_equal. apply zn_ext; [rewrite L; reflexivity|]. rewrite L. intros p P. rewrite K by (unfold pixel; cbn; lia).
      assert (E : forallb (fun p => (if p =? 2 then 1 else 0) =? zn [0; 0; 1; 0] p) (zrange 0 4) = true) by reflexivity.
      rewrite forallb_forall in E. apply Z.eqb_eq, E, zrange_In, P. }
  split; [|exact E]. rewrite <- E. apply periodic_same.
  - exact exact_sums.
  - exact exact_precise.
  - discriminate.
  - repeat constructor; lia.
  - reflexivity.
  - cbn. lia.
  - intros v [O (w & W & LT)]. apply (occurs_In [4] [0; 1; 1; 1]) in O; [|reflexivity]. apply (occurs_In [4] [0; 1; 1; 1]) in W; [|reflexivity].
    cbn in O, W. assert (v = 1) as -> by lia. exact dash_steady.
Qed.

Lemma assertions_same : forall shape labels per, shape <> [] -> collapse false shape labels per = collapse true shape labels per.
Proof. intros [|n shape] labels per N; [congruence|]. reflexivity. Qed.

Lemma float_case : forall asrt, sums exact_trig /\ precise exact_trig /\ correctly_rounded exact_trig /\
  (forall v, named [4] [0; 1; 1; 1] v -> steady [4] [0; 1; 1; 1] v) /\ named [4] [0; 1; 1; 1] 1 /\
  fcollapse exact_trig asrt [4] [0; 1; 1; 1] true = Ok [0; 0; 1; 0] /\ collapse asrt [4] [0; 1; 1; 1] true = Ok [0; 0; 1; 0] /\
  fcollapse exact_trig asrt [6] [0; 1; 1; 1; 0; 2] false = Ok [0; 0; 1; 0; 0; 2].
Proof.
  intros asrt. split; [exact exact_sums|]. split; [exact exact_precise|]. split; [exact exact_correctly_rounded|].
  split; [|split; [|split; [apply dash_case|split; [apply dash_case|]]]].
  - intros v [O (w & W & LT)]. apply (occurs_In [4] [0; 1; 1; 1]) in O; [|reflexivity]. apply (occurs_In [4] [0; 1; 1; 1]) in W; [|reflexivity].
    cbn in O, W. assert (v = 1) as -> by lia. exact dash_steady.
  - split; [exists 1; split; [unfold pixel; cbn; lia|reflexivity]|]. exists 0. split; [exists 0; split; [unfold pixel; cbn; lia|reflexivity]|lia].
  - destruct dots_case as (_ & _ & _ & _ & _ & _ & E). rewrite not_periodic_same.
    + destruct asrt; [exact E|]. rewrite assertions_same by discriminate. exact E.
    + exact exact_sums.
    + discriminate.
    + repeat constructor; lia.
    + reflexivity.
    + intros n [<-|[]]. cbn. lia.
Qed.
