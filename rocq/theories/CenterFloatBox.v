(** * CenterFloatBox: a center outside of its box, and a library that is correctly rounded *)

From Coq Require Import ZArith QArith Qreals Reals Ratan List Bool Lia Lra Psatz Permutation.
From Flocq Require Import Core Relative BinarySingleNaN.
From Verif Require Import Base Center SpecCenter CenterProofs CenterTop Double SpecDouble DoubleProofs DoubleError CirclesFloat CirclesFloatGrid
  CenterFloat SpecCenterFloat CenterFloatSums CenterFloatTrig.
Import ListNotations.
Open Scope R_scope.

Local Notation rnd := (round radix2 (FLT_exp (-1074) 53) ZnearestE).
Local Notation u := (bpow radix2 (-53)).
Local Notation eps := (bpow radix2 (-52)).

(** ** Pi *)

Lemma pi_tight : / 4503599627370496 * / 1000000 <= PI - B2R lit_pi <= 3 / 5 * / 4503599627370496.
Proof.
  destruct (PI_2_3_7_ineq 10) as [L U]. rewrite <- qsum_value in L, U.
  assert (L2 : Q2R (7074237752028440 # 9007199254740992) + / 4 * / 1000000 * Q2R (1 # 4503599627370496) <= Q2R (qsum (S (2 * 10)))).
  { replace (/ 4 * / 1000000) with (Q2R (1 # 4000000)) by (unfold Q2R; cbn; lra). rewrite <- Qreals.Q2R_mult, <- Qreals.Q2R_plus. apply Qle_Rle.
    vm_compute. intros H; discriminate. }
  assert (U2 : Q2R (qsum (2 * 10)) <= Q2R (7074237752028440 # 9007199254740992) + / 4 * (3 / 5) * Q2R (1 # 4503599627370496)).
  { replace (/ 4 * (3 / 5)) with (Q2R (3 # 20)) by (unfold Q2R; cbn; lra). rewrite <- Qreals.Q2R_mult, <- Qreals.Q2R_plus. apply Qle_Rle.
    vm_compute. intros H; discriminate. }
  destruct pi_value as [_ V]. rewrite V. change (bpow radix2 (-51)) with (/ 2251799813685248).
  unfold Q2R at 1 2 in L2. unfold Q2R at 2 3 in U2. cbn [Qnum Qden] in L2, U2. split; lra.
Qed.

(** Numbers that round to pi. *)
Lemma rounds_to_pi : forall a, Rabs (a - B2R lit_pi) < / 4503599627370496 -> rnd a = B2R lit_pi.
Proof.
  intros a H. pose proof lit_pi_range as R. unfold val in R. apply Rabs_lt_inv in H.
  assert (M : mag radix2 a = 2%Z :> Z). { apply mag_unique. rewrite Rabs_pos_eq by lra. change (bpow radix2 (2 - 1)) with 2. change (bpow radix2 2) with 4. lra. }
  assert (C : cexp radix2 (FLT_exp (-1074) 53) a = (-51)%Z) by (unfold cexp; rewrite M; reflexivity).
  destruct pi_value as [_ V]. unfold round, scaled_mantissa. rewrite C. change (- (-51))%Z with 51%Z.
  rewrite (Znearest_imp _ (a * bpow radix2 51) 7074237752028440).
  - unfold F2R. cbn [Fnum Fexp]. symmetry. exact V.
  - change (bpow radix2 51) with 2251799813685248. rewrite V in H. change (bpow radix2 (-51)) with (/ 2251799813685248) in H. apply Rabs_lt. lra.
Qed.

(** ** A sum of one number *)
Lemma adds_alone : forall l s, adds l s -> (l = [] -> finite s /\ val s = 0) /\ (forall x, l = [x] -> finite x -> finite s /\ val s = val x).
Proof.
  intros l s H. induction H as [|x|l1 l2 l x y H1 [N1 O1] H2 [N2 O2] P].
  - split; [intros _; split; reflexivity|discriminate].
  - split; [discriminate|]. intros y E F. injection E as ->. split; [exact F|reflexivity].
  - split.
    + intros ->. apply Permutation_nil in P. destruct l1; [|discriminate]. destruct l2; [|discriminate].
      destruct (N1 eq_refl) as [F1 V1]. destruct (N2 eq_refl) as [F2 V2]. destruct (finite_zero_plus x y F1 F2 V1) as [F V]. split; [exact F|]. unfold val in *. congruence.
    + intros z -> Fz. apply Permutation_length_1_inv in P. destruct l1 as [|a l1].
      * cbn in P. destruct (N1 eq_refl) as [F1 V1]. destruct (O2 z P Fz) as [F2 V2]. destruct (finite_zero_plus x y F1 F2 V1) as [F V]. split; [exact F|]. unfold val in *. congruence.
      * destruct l1; [|discriminate]. destruct l2; [|discriminate]. injection P as ->.
        destruct (N2 eq_refl) as [F2 V2]. destruct (O1 z eq_refl Fz) as [F1 V1]. destruct (finite_plus_zero x y F1 F2 V2) as [F V]. split; [exact F|]. unfold val in *. congruence.
Qed.

Lemma same_finite : forall x y : double, is_finite x = true -> is_finite y = true -> B2R x = B2R y -> B2R y <> 0 -> x = y.
Proof.
  assert (S : forall z : double, is_finite z = true -> B2R z <> 0 -> is_finite_strict z = true) by (intros [s|s| |s m e q]; cbn; intros; congruence).
  intros x y FX FY E N. apply B2R_inj; [apply S; congruence|apply S; congruence|exact E].
Qed.

Lemma mean_alone : forall T x, sums T -> finite x -> finite (fmean_of T [x]) /\ val (fmean_of T [x]) = val x.
Proof.
  intros T x HT F. destruct (adds_alone _ _ (HT [x])) as [_ A]. destruct (A x eq_refl F) as [FS VS].
  unfold fmean_of. assert (D1 : B2R (dz 1) = 1) by (apply (dz_value 1); lia). change (dz (lenZ [x])) with (dz 1).
  pose proof (Bdiv_correct 53 1024 precision exponent mode_NE (t_sum T [x]) (dz 1)) as Q. rewrite D1 in Q. specialize (Q ltac:(lra)).
  change (SpecFloat.fexp 53 1024) with (FLT_exp (-1074) 53) in Q. change (round_mode mode_NE) with ZnearestE in Q.
  unfold Rdiv in Q. rewrite Rinv_1, Rmult_1_r, rnd_double, Rlt_bool_true in Q by apply abs_B2R_lt_emax.
  destruct Q as (Q1 & Q2 & _). unfold finite, val in *. unfold ddiv. rewrite Q1, Q2. split; assumption.
Qed.

Lemma cos_near_one : forall d, 1 - d <= cos d \/ d < 0.
Proof.
  intros d. destruct (Rle_or_lt 0 d) as [H|H]; [left|right; exact H]. pose proof (cos_lipschitz 0 d) as C. rewrite cos_0, Rminus_0_r, (Rabs_pos_eq d) in C by lra. apply Rabs_le_inv in C. lra.
Qed.

(** One position, at the end of a box of length 115. *)
Lemma outside : forall T, sums T -> correctly_rounded T ->
  exists c, fcenter T [dz 115] [[dz 115]] true = Ok [c] /\ is_finite c = true /\ 115 < B2R c.
Proof.
  intros T HT [HCS HAT].
  assert (TH : ddiv (dtimes two_pi (dz 115)) (dz 115) = two_pi) by (apply B2SF_inj; vm_compute; reflexivity).
  destruct two_pi_value as [F2 E2]. destruct pi_tight as [P1 P2]. pose proof lit_pi_range as PR. pose proof pi_range as PR'. unfold val in *.
  set (p := B2R lit_pi) in *. set (d := 2 * (PI - p)).
  assert (DR : 0 < d <= 6 / 5 * / 4503599627370496) by (unfold d; lra).
  destruct (HCS two_pi F2) as [[FC VC] [FS VS]].
  { rewrite E2, Rabs_pos_eq by lra. apply Rle_trans with (bpow radix2 3); [change (bpow radix2 3) with 8; lra|apply bpow_le; lia]. }
  assert (E2P : B2R two_pi = 2 * PI - d) by (rewrite E2; unfold d; ring). rewrite E2P in VC, VS.
  assert (CE : cos (2 * PI - d) = cos d) by (replace (2 * PI - d) with (- d + 2 * INR 1 * PI) by (cbn; ring); rewrite cos_period, cos_neg; reflexivity).
  assert (SE : sin (2 * PI - d) = - sin d) by (replace (2 * PI - d) with (- d + 2 * INR 1 * PI) by (cbn; ring); rewrite sin_period, sin_neg; reflexivity).
  rewrite CE in VC. rewrite SE in VS.
  assert (UE : u = / 9007199254740992) by reflexivity.
  assert (TN : bpow radix2 (-1075) <= / 9007199254740992 * / 9007199254740992) by (rewrite <- UE, <- bpow_plus; apply bpow_le; lia).
  (* the cosine *)
  assert (CB : 1 - d <= cos d) by (destruct (cos_near_one d); lra). pose proof (COS_bound d) as CB1.
  set (X := t_cos T two_pi) in *. set (Z := t_sin T two_pi) in *.
  assert (XB : 99 / 100 <= B2R X).
  { rewrite VC. pose proof (rnd_error (cos d)) as E. apply Rabs_le_inv in E. rewrite (Rabs_pos_eq (cos d)), UE in E by lra. lra. }
  (* the sine *)
  assert (SB : 0 < sin d <= d).
  { split; [apply sin_gt_0; lra|]. pose proof (sin_lipschitz 0 d) as S. rewrite sin_0, !Rminus_0_r, (Rabs_pos_eq d) in S by lra. apply Rabs_le_inv in S. lra. }
  assert (SL : / 2 * d <= sin d).
  { destruct (MVT_abs sin cos 0 d) as (c & EC & EC2 & EC3); [intros; apply derivable_pt_lim_sin|]. rewrite sin_0, !Rminus_0_r in EC.
    rewrite (Rabs_pos_eq (sin d)), (Rabs_pos_eq d) in EC by lra. rewrite Rmin_left in EC2 by lra. rewrite Rmax_right in EC3 by lra.
    assert (/ 2 <= cos c) by (destruct (cos_near_one c); lra). rewrite Rabs_pos_eq in EC by lra. rewrite EC. nra. }
  set (s := - B2R Z). assert (SR : 0 < s <= d * (101 / 100)).
  { assert (ZR : - s = rnd (- sin d)) by (unfold s; lra).
    assert (Dbig : / 9007199254740992 * / 1000000 <= d).
    { unfold d. lra. }
    pose proof (rnd_error (- sin d)) as E. rewrite <- ZR in E. apply Rabs_le_inv in E. rewrite Rabs_Ropp, (Rabs_pos_eq (sin d)), UE in E by lra. lra. }
  destruct (mean_alone T X HT FC) as [FX VX]. destruct (mean_alone T Z HT FS) as [FZ VZ]. unfold val, finite in *.
  set (t := - atan (s / B2R X) + PI).
  assert (QB : 0 < s / B2R X <= d * (11 / 10)).
  { split; [apply Rdiv_lt_0_compat; lra|]. apply Rmult_le_reg_r with (B2R X); [lra|]. unfold Rdiv. rewrite Rmult_assoc, Rinv_l, Rmult_1_r by lra. nra. }
  assert (AB : 0 <= atan (s / B2R X) <= d * (11 / 10)).
  { pose proof (atan_le (s / B2R X)) as A. rewrite (Rabs_pos_eq (s / B2R X)) in A by lra. apply Rabs_le_inv in A. pose proof (atan_nonneg (s / B2R X) ltac:(lra)). lra. }
  assert (AN : angle (B2R (Bopp (fmean_of T [Z]))) (B2R (Bopp (fmean_of T [X]))) t).
  { rewrite !B2R_Bopp, VX, VZ. fold s. split; [unfold t; lra|]. set (a := atan (s / B2R X)) in *.
    pose proof (atan_bound (s / B2R X)) as B. fold a in B. assert (C : 0 < cos a) by (apply cos_gt_0; lra).
    exists (B2R X / cos a). split; [apply Rdiv_lt_0_compat; lra|]. unfold t. rewrite neg_cos, neg_sin, cos_neg, sin_neg. split; [field; lra|].
    assert (TA : tan a = s / B2R X) by apply tan_atan. unfold tan in TA.
    replace (B2R X / cos a * - - sin a) with (B2R X * (sin a / cos a)) by (field; lra). rewrite TA. field. lra. }
  destruct (HAT (Bopp (fmean_of T [Z])) (Bopp (fmean_of T [X])) t) as [FT VT].
  { rewrite is_finite_Bopp. exact FZ. } { rewrite is_finite_Bopp. exact FX. } { rewrite B2R_Bopp, VZ. fold s. lra. } { exact AN. }
  rewrite rounds_to_pi in VT.
  2:{ fold p. unfold t. apply Rabs_lt. unfold d in AB. lra. }
  assert (TE : t_atan2 T (Bopp (fmean_of T [Z])) (Bopp (fmean_of T [X])) = lit_pi) by (apply same_finite; [exact FT|apply pi_value|exact VT|fold p; lra]).
  exists (ddiv (dtimes (dz 115) (dplus lit_pi lit_pi)) two_pi). split.
  - unfold fcenter. cbn [frows_fit forallb length Nat.eqb andb negb fno_positions fall_axes fcolumn map nth]. unfold faxis_center. cbn [negb map]. rewrite TH. fold X Z. rewrite TE. reflexivity.
  - set (c := ddiv (dtimes (dz 115) (dplus lit_pi lit_pi)) two_pi).
    assert (B : match B2SF c with SpecFloat.S754_finite false m e => ((115 * 2 ^ 46 <? Zpos m) && (e =? -46))%Z | _ => false end = true) by (vm_compute; reflexivity).
    assert (B' : exists m e, B2SF c = SpecFloat.S754_finite false m e /\ (115 * 2 ^ 46 < Zpos m)%Z /\ e = (-46)%Z).
    { destruct (B2SF c) as [|?| |[|] m e]; try discriminate. apply andb_true_iff in B. destruct B as [B1 B2]. exists m, e. split; [reflexivity|]. lia. }
    clearbody c. clear B. rename B' into B.
    destruct B as (m & e & B1 & B2 & ->). destruct (literal _ _ _ B1) as [F V]. split; [exact F|]. rewrite V. apply IZR_lt in B2. rewrite mult_IZR, IZR_pow in B2 by lia.
    apply Rmult_lt_reg_r with (bpow radix2 46); [apply bpow_gt_0|]. rewrite Rmult_assoc, <- bpow_plus. change (bpow radix2 (-46 + 46)) with 1. rewrite Rmult_1_r. exact B2.
Qed.

(** ** A library *)

Definition to_double (r : R) : double :=
  binary_normalize 53 1024 precision exponent mode_NE (ZnearestE (scaled_mantissa radix2 (FLT_exp (-1074) 53) r)) (cexp radix2 (FLT_exp (-1074) 53) r) false.

Definition exact_trig : trig :=
  mktrig (fun x => to_double (cos (B2R x))) (fun x => to_double (sin (B2R x))) (fun y x => to_double (atan2_num true (B2R y) (B2R x))) (fun l => fold_right dplus dzero l).

Lemma to_double_nearest : forall r, Rabs r <= bpow radix2 1000 -> nearest_double r (to_double r).
Proof.
  intros r H. assert (VE : Valid_exp (FLT_exp (-1074) 53)) by (apply FLT_exp_valid; reflexivity).
  pose proof (binary_normalize_correct 53 1024 precision exponent mode_NE (ZnearestE (scaled_mantissa radix2 (FLT_exp (-1074) 53) r)) (cexp radix2 (FLT_exp (-1074) 53) r) false) as N. cbv zeta in N.
  change (SpecFloat.fexp 53 1024) with (FLT_exp (-1074) 53) in N. change (round_mode mode_NE) with ZnearestE in N.
  change (F2R (Float radix2 (ZnearestE (scaled_mantissa radix2 (FLT_exp (-1074) 53) r)) (cexp radix2 (FLT_exp (-1074) 53) r))) with (rnd r) in N.
  assert (RV : rnd (rnd r) = rnd r) by (apply round_generic; [apply valid_rnd_N|apply generic_format_round; [exact VE|apply valid_rnd_N]]). rewrite !RV in N.
  rewrite below in N by exact H. destruct N as (N1 & N2 & _). split; assumption.
Qed.

Lemma exact_sums : sums exact_trig.
Proof.
  intros l. cbn [t_sum exact_trig]. induction l as [|x l IH]; cbn [fold_right]; [apply adds_none|].
  apply adds_both with (l1 := [x]) (l2 := l); [apply adds_one|exact IH|apply Permutation_refl].
Qed.

Lemma one_big : forall r, Rabs r <= 4 -> Rabs r <= bpow radix2 1000.
Proof. intros r H. apply Rle_trans with (1 := H). change 4 with (bpow radix2 2). apply bpow_le. lia. Qed.

Lemma rnd_mono : forall a b, a <= b -> rnd a <= rnd b.
Proof. intros a b H. apply round_le; [apply FLT_exp_valid; reflexivity|apply valid_rnd_N|exact H]. Qed.
Lemma rnd_opp : forall a, rnd (- a) = - rnd a.
Proof. intros a. apply (round_NE_opp radix2 (FLT_exp (-1074) 53)). Qed.

Lemma rnd_within : forall r (b : double), Rabs r <= 4 -> B2R b = rnd (B2R b) -> Rabs r <= B2R b \/ (B2R b = rnd PI /\ Rabs r <= PI) -> Rabs (rnd r) <= B2R b.
Proof.
  intros r b H0 HB [H|[HE H]]; apply Rabs_le_inv in H; apply Rabs_le; split.
  - rewrite HB, <- rnd_opp. apply rnd_mono. lra.
  - rewrite HB. apply rnd_mono. lra.
  - rewrite HE, <- rnd_opp. apply rnd_mono. lra.
  - rewrite HE. apply rnd_mono. lra.
Qed.

Lemma rnd_pi : rnd PI = B2R lit_pi.
Proof. apply rounds_to_pi. pose proof pi_tight. apply Rabs_lt. lra. Qed.

Lemma exact_precise : precise exact_trig.
Proof.
  assert (UE : u = / 9007199254740992) by reflexivity.
  assert (EE : eps = / 4503599627370496) by reflexivity.
  assert (E51 : bpow radix2 (-51) = / 2251799813685248) by reflexivity.
  assert (TN : bpow radix2 (-1075) <= / 9007199254740992 * / 9007199254740992) by (rewrite <- UE, <- bpow_plus; apply bpow_le; lia).
  assert (ONE : B2R (dz 1) = 1) by (apply (dz_value 1); lia). pose proof pi_range as PR.
  assert (UNIT : forall r, Rabs r <= 1 -> within eps r (to_double r) /\ Rabs (B2R (to_double r)) <= 1).
  { intros r H. destruct (to_double_nearest r) as [F V]; [apply one_big; lra|]. split; [split; [exact F|]|].
    - rewrite V. apply Rle_trans with (1 := rnd_error r). rewrite UE, EE. lra.
    - rewrite V, <- ONE. apply rnd_within; [lra|symmetry; apply rnd_double|]. left. rewrite ONE. exact H. }
  split.
  - intros x F B. cbn [t_cos t_sin exact_trig]. split; apply UNIT; apply Rabs_le; [apply COS_bound|apply SIN_bound].
  - intros y x FY FX. cbn [t_atan2 exact_trig]. set (a := atan2_num true (B2R y) (B2R x)). pose proof (atan2_range (B2R y) (B2R x)) as R. fold a in R.
    assert (AB : Rabs a <= PI) by (apply Rabs_le; lra).
    destruct (to_double_nearest a) as [F V]; [apply one_big; lra|]. split; [split; [exact F|]|].
    + rewrite V, Rminus_0_r. apply rnd_within; [lra|symmetry; apply rnd_double|]. right. split; [symmetry; apply rnd_pi|exact AB].
    + intros NZ. exists a. split.
      * split; [lra|]. destruct (atan2_spec true (B2R y) (B2R x)) as (rho & R0 & RX & RY). fold a in RX, RY. exists rho.
        split; [|split; assumption]. destruct (Req_dec rho 0) as [E|E]; [|lra]. exfalso. apply NZ. rewrite E in RX, RY. lra.
      * split; [exact F|]. rewrite V. apply Rle_trans with (1 := rnd_error a). rewrite UE, E51. lra.
Qed.

Lemma angle_unique : forall y x a b, y <> 0 -> angle y x a -> angle y x b -> a = b.
Proof.
  intros y x a b NY [A (r & R0 & RX & RY)] [B (s & S0 & SX & SY)]. pose proof PI_RGT_0 as PP.
  assert (EQ : r * r = s * s).
  { pose proof (sin2_cos2 a) as QA. pose proof (sin2_cos2 b) as QB. unfold Rsqr in QA, QB.
    transitivity (r * cos a * (r * cos a) + r * sin a * (r * sin a)); [nra|]. rewrite <- RX, <- RY, SX, SY. nra. }
  assert (ER : r = s) by nra. subst s.
  assert (C : cos a = cos b) by (apply Rmult_eq_reg_l with r; lra). assert (S : sin a = sin b) by (apply Rmult_eq_reg_l with r; lra).
  assert (NA : - PI < a < PI).
  { split; [destruct (Req_dec a (- PI)) as [->|]; [|lra]|destruct (Req_dec a PI) as [->|]; [|lra]].
    - exfalso. apply NY. rewrite RY, sin_neg, sin_PI. ring.
    - exfalso. apply NY. rewrite RY, sin_PI. ring. }
  assert (NB : - PI < b < PI).
  { split; [destruct (Req_dec b (- PI)) as [->|]; [|lra]|destruct (Req_dec b PI) as [->|]; [|lra]].
    - exfalso. apply NY. rewrite SY, sin_neg, sin_PI. ring.
    - exfalso. apply NY. rewrite SY, sin_PI. ring. }
  set (w := (a - b) / 2). assert (CW : cos (2 * w) = 1).
  { replace (2 * w) with (a - b) by (unfold w; field). rewrite cos_minus, C, S. pose proof (sin2_cos2 b) as Q. unfold Rsqr in Q. lra. }
  rewrite cos_2a_sin in CW. assert (SW : sin w = 0) by nra.
  destruct (Rtotal_order w 0) as [L|[E|G]].
  - pose proof (sin_gt_0 (- w)) as P. rewrite sin_neg in P. unfold w in *. lra.
  - unfold w in E. lra.
  - pose proof (sin_gt_0 w) as P. unfold w in *. lra.
Qed.

Lemma exact_correctly_rounded : correctly_rounded exact_trig.
Proof.
  split.
  - intros x F B. cbn [t_cos t_sin exact_trig]. pose proof (COS_bound (B2R x)) as C. pose proof (SIN_bound (B2R x)) as S. split; apply to_double_nearest, one_big, Rabs_le; lra.
  - intros y x a FY FX NY A. cbn [t_atan2 exact_trig]. pose proof (atan2_range (B2R y) (B2R x)) as R. pose proof pi_range.
    assert (E : a = atan2_num true (B2R y) (B2R x)).
    { apply (angle_unique (B2R y) (B2R x)); [exact NY|exact A|]. split; [lra|]. destruct (atan2_spec true (B2R y) (B2R x)) as (rho & R0 & RX & RY). exists rho.
      split; [|split; assumption]. destruct (Req_dec rho 0) as [E|E]; [|lra]. exfalso. apply NY. rewrite E in RY. lra. }
    rewrite E. apply to_double_nearest, one_big, Rabs_le. lra.
Qed.
