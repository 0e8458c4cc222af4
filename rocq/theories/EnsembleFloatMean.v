(** * EnsembleFloatMean: range of the mean and sign of the variance, in floating point *)

From Coq Require Import ZArith QArith Qcanon Qreals Reals List Bool Lia Lra Psatz.
From Flocq Require Import Core Relative BinarySingleNaN.
From Verif Require Import Base BaseLemmas Array3 Path Ensemble SpecCluster SpecEnsemble EnsembleRun Double EnsembleFloat SpecDouble DoubleProofs EnsembleFloatProofs EnsembleFloatTop.
Import ListNotations.
Open Scope Z_scope.

Local Notation rnd := (round radix2 (FLT_exp (-1074) 53) ZnearestE).

(** ** Operations that do not overflow *)

Lemma rnd_le : forall a b, (a <= b)%R -> (rnd a <= rnd b)%R.
Proof. intros a b H. apply round_le; auto; [apply FLT_exp_valid; reflexivity|apply valid_rnd_N]. Qed.

Lemma rnd_bpow : forall r e, -1000 <= e -> (Rabs r <= bpow radix2 e)%R -> (Rabs (rnd r) <= bpow radix2 e)%R.
Proof.
  intros r e He H. apply abs_round_le_generic; auto; [apply FLT_exp_valid; reflexivity|apply valid_rnd_N|].
  apply generic_format_bpow. unfold FLT_exp. lia.
Qed.

Lemma rnd_small : forall r, (Rabs r <= bpow radix2 200)%R -> Rlt_bool (Rabs (rnd r)) (bpow radix2 1024) = true.
Proof. intros r H. apply Rlt_bool_true. apply Rle_lt_trans with (bpow radix2 200); [apply rnd_bpow; [lia|exact H]|apply bpow_lt; lia]. Qed.

Lemma rnd_nonneg : forall r, (0 <= r)%R -> (0 <= rnd r)%R.
Proof. intros r H. rewrite <- (round_0 radix2 (FLT_exp (-1074) 53) ZnearestE). apply rnd_le. exact H. Qed.

Lemma near_times : forall x y, is_finite x = true -> is_finite y = true -> (Rabs (B2R x * B2R y) <= bpow radix2 200)%R ->
  nearest_double (B2R x * B2R y)%R (dtimes x y).
Proof.
  intros x y Fx Fy H. pose proof (Bmult_correct 53 1024 precision exponent mode_NE x y) as C.
  change (SpecFloat.fexp 53 1024) with (FLT_exp (-1074) 53) in C. change (round_mode mode_NE) with ZnearestE in C.
  rewrite rnd_small in C by exact H. destruct C as (C1 & C2 & _). split; [unfold dtimes; rewrite C2, Fx, Fy; reflexivity|exact C1].
Qed.

Lemma near_minus : forall x y, is_finite x = true -> is_finite y = true -> (Rabs (B2R x - B2R y) <= bpow radix2 200)%R ->
  nearest_double (B2R x - B2R y)%R (dminus x y).
Proof.
  intros x y Fx Fy H. pose proof (Bminus_correct 53 1024 precision exponent mode_NE x y Fx Fy) as C.
  change (SpecFloat.fexp 53 1024) with (FLT_exp (-1074) 53) in C. change (round_mode mode_NE) with ZnearestE in C.
  rewrite rnd_small in C by exact H. destruct C as (C1 & C2 & _). split; [exact C2|exact C1].
Qed.

Lemma near_div : forall x y, is_finite x = true -> B2R y <> 0%R -> (Rabs (B2R x / B2R y) <= bpow radix2 200)%R ->
  nearest_double (B2R x / B2R y)%R (ddiv x y).
Proof.
  intros x y Fx Ny H. pose proof (Bdiv_correct 53 1024 precision exponent mode_NE x y Ny) as C.
  change (SpecFloat.fexp 53 1024) with (FLT_exp (-1074) 53) in C. change (round_mode mode_NE) with ZnearestE in C.
  rewrite rnd_small in C by exact H. destruct C as (C1 & C2 & _). split; [unfold ddiv; rewrite C2; exact Fx|exact C1].
Qed.

(** ** Sums of integers and of their squares *)

Fixpoint sq (l : list Z) : Z := match l with [] => 0 | x :: l => x * x + sq l end.
Fixpoint sd (x : Z) (l : list Z) : Z := match l with [] => 0 | y :: l => (x - y) * (x - y) + sd x l end.

Lemma sd_eq : forall x l, sd x l = lenZ l * (x * x) - 2 * x * zsum l + sq l.
Proof.
  intros x l. induction l as [|y l IH]; cbn [sd sq]; [unfold lenZ; cbn; ring|]. rewrite IH. unfold lenZ. cbn [length]. rewrite Nat2Z.inj_succ.
  change (zsum (y :: l)) with (y + zsum l). ring.
Qed.

Lemma sd_nonneg : forall x l, 0 <= sd x l.
Proof. intros x l. induction l as [|y l IH]; cbn [sd]; [lia|]. pose proof (Z.square_nonneg (x - y)). lia. Qed.

Lemma sd_pos : forall x l y, In y l -> y <> x -> 1 <= sd x l.
Proof.
  intros x l y. induction l as [|z l IH]; intros H HN; [destruct H|]. cbn [sd]. pose proof (sd_nonneg x l). destruct H as [->|H].
  - assert (1 <= (x - y) * (x - y)) by nia. lia.
  - specialize (IH H HN). pose proof (Z.square_nonneg (x - z)). lia.
Qed.

Lemma sd_all : forall x l c, (forall y, In y l -> y = c) -> c <> x -> lenZ l <= sd x l.
Proof.
  intros x l c H HN. induction l as [|z l IH]; [unfold lenZ; cbn; lia|]. cbn [sd]. unfold lenZ in *. cbn [length]. rewrite Nat2Z.inj_succ.
  assert (1 <= (x - z) * (x - z)) by (rewrite (H z (or_introl eq_refl)); nia). assert (Z.of_nat (length l) <= sd x l) by (apply IH; intros; apply H; right; auto). lia.
Qed.

Lemma constant_sums : forall l c, (forall y, In y l -> y = c) -> zsum l = lenZ l * c /\ sq l = lenZ l * (c * c).
Proof.
  intros l c H. induction l as [|y l IH]; [unfold lenZ; cbn; lia|]. destruct IH as [I1 I2]; [intros; apply H; right; auto|].
  change (zsum (y :: l)) with (y + zsum l). cbn [sq]. rewrite I1, I2, (H y (or_introl eq_refl)). unfold lenZ. cbn [length]. rewrite Nat2Z.inj_succ. split; ring.
Qed.

(** n times the sum of squares against the square of the sum: equal for a constant list,
    otherwise at least n - 1 apart. *)
Lemma spread : forall l, (exists c, forall y, In y l -> y = c) \/ lenZ l - 1 <= lenZ l * sq l - zsum l * zsum l.
Proof.
  induction l as [|x l IH]; [left; exists 0; intros y []|].
  assert (E : lenZ (x :: l) * sq (x :: l) - zsum (x :: l) * zsum (x :: l) = lenZ l * sq l - zsum l * zsum l + sd x l).
  { rewrite sd_eq. unfold lenZ. cbn [length sq]. rewrite Nat2Z.inj_succ. change (zsum (x :: l)) with (x + zsum l). ring. }
  rewrite E. assert (EL : lenZ (x :: l) = lenZ l + 1) by (unfold lenZ; cbn [length]; lia). rewrite EL.
  destruct (Forall_Exists_dec (fun y => y = x) (fun y => Z.eq_dec y x) l) as [F|F].
  - left. exists x. intros y [->|H]; [reflexivity|]. apply (proj1 (Forall_forall _ _) F y H).
  - right. apply Exists_exists in F. destruct F as (y & Hy & N). destruct IH as [[c Hc]|IH].
    + destruct (constant_sums l c Hc) as [-> ->]. pose proof (sd_all x l c Hc ltac:(rewrite <- (Hc y Hy); exact N)) as HS.
      set (n := lenZ l) in *. replace (n * (n * (c * c)) - n * c * (n * c)) with 0 by ring. lia.
    + pose proof (sd_pos x l y Hy N). lia.
Qed.

(** The square of the rounded average is at most the average square. *)
Lemma square_of_average : forall l, 2 <= lenZ l -> sq l <= 2 ^ 50 -> Z.abs (zsum l) <= 2 ^ 53 -> lenZ l <= 2 ^ 53 ->
  (rnd (IZR (zsum l) / IZR (lenZ l)) * rnd (IZR (zsum l) / IZR (lenZ l)) <= IZR (sq l) / IZR (lenZ l))%R.
Proof.
  intros l HN HQ HS HL. set (n := lenZ l) in *. assert (NP : (2 <= IZR n)%R) by (apply (IZR_le 2); exact HN).
  destruct (spread l) as [[c Hc]|HD].
  - destruct (constant_sums l c Hc) as [-> ->]. fold n. replace (IZR (n * c) / IZR n)%R with (IZR c) by (rewrite mult_IZR; field; lra).
    replace (IZR (n * (c * c)) / IZR n)%R with (IZR c * IZR c)%R by (rewrite !mult_IZR; field; lra).
    assert (B : Z.abs c <= 2 ^ 53). { destruct l as [|y l]; [unfold n, lenZ in HN; cbn in HN; lia|]. destruct (constant_sums (y :: l) c Hc) as [E _]. rewrite E in HS. fold n in HS. nia. }
    pose proof (int_round c B) as R. change (SpecFloat.fexp 53 1024) with (FLT_exp (-1074) 53) in R. change (round_mode mode_NE) with ZnearestE in R. rewrite R. lra.
  - fold n in HD. set (s := zsum l) in *. set (q := sq l) in *. set (b := (IZR s / IZR n)%R).
    destruct (Z.eq_dec s 0) as [S0|S0].
    { unfold b. rewrite S0. unfold Rdiv at 1 2. rewrite !Rmult_0_l. rewrite round_0 by apply valid_rnd_N. rewrite Rmult_0_l. apply Rmult_le_pos; [|left; apply Rinv_0_lt_compat; lra].
      apply (IZR_le 0). rewrite S0 in HD. nia. }
    assert (SB : (bpow radix2 (-1074 + 53 - 1) <= Rabs b)%R).
    { apply Rle_trans with (bpow radix2 (-53)); [apply bpow_le; lia|]. unfold b, Rdiv. rewrite Rabs_mult, <- abs_IZR. rewrite (Rabs_pos_eq (/ IZR n)) by (left; apply Rinv_0_lt_compat; lra).
      change (bpow radix2 (-53)) with (/ IZR (2 ^ 53))%R. assert (1 <= IZR (Z.abs s))%R by (apply (IZR_le 1); lia).
      assert (/ IZR (2 ^ 53) <= / IZR n)%R by (apply Rinv_le_contravar; [lra|apply IZR_le; exact HL]).
      assert (0 < / IZR (2 ^ 53))%R by (apply Rinv_0_lt_compat; apply (IZR_lt 0); reflexivity). nra. }
    pose proof (relative_error_N_FLT radix2 (-1074) 53 ltac:(lia) (fun x => negb (Z.even x)) b SB) as RE. change (Z.add (Z.opp 53) 1) with (-52) in RE.
    change (Znearest (fun x => negb (Z.even x))) with ZnearestE in RE.
    set (r := rnd b) in *.
    assert (U : (/ 2 * bpow radix2 (-52) = / IZR (2 ^ 53))%R). { change (bpow radix2 (-52)) with (/ IZR (2 ^ 52))%R. change (2 ^ 53)%Z with (2 * 2 ^ 52)%Z. rewrite mult_IZR. rewrite Rinv_mult. reflexivity. }
    rewrite U in RE. set (u := (/ IZR (2 ^ 53))%R) in *.
    assert (U0 : (0 < u)%R) by (apply Rinv_0_lt_compat; apply (IZR_lt 0); reflexivity).
    assert (U1 : (u * 2 <= 1)%R).
    { assert (u <= / IZR 2)%R by (apply Rinv_le_contravar; [lra|apply IZR_le; discriminate]). lra. }
    assert (RB : (Rabs r <= Rabs b * (1 + u))%R).
    { replace r with ((r - b) + b)%R by ring. eapply Rle_trans; [apply Rabs_triang|]. lra. }
    assert (R2 : (r * r <= b * b * (1 + 4 * u))%R).
    { replace (r * r)%R with (Rabs r * Rabs r)%R by (rewrite <- Rabs_mult; apply Rabs_pos_eq; nra).
      replace (b * b)%R with (Rabs b * Rabs b)%R by (rewrite <- Rabs_mult; apply Rabs_pos_eq; nra).
      pose proof (Rabs_pos r). pose proof (Rabs_pos b). apply Rle_trans with ((Rabs b * (1 + u)) * (Rabs b * (1 + u)))%R; [apply Rmult_le_compat; lra|].
      replace (Rabs b * (1 + u) * (Rabs b * (1 + u)))%R with (Rabs b * Rabs b * ((1 + u) * (1 + u)))%R by ring. apply Rmult_le_compat_l; [nra|]. nra. }
    eapply Rle_trans; [exact R2|].
    assert (E1 : (b * b = IZR (s * s) / (IZR n * IZR n))%R) by (unfold b; rewrite mult_IZR; field; lra).
    assert (E2 : (IZR q / IZR n = IZR (n * q) / (IZR n * IZR n))%R) by (rewrite mult_IZR; field; lra).
    rewrite E1, E2. unfold Rdiv. rewrite (Rmult_comm (IZR (s * s) * _)), <- Rmult_assoc. apply Rmult_le_compat_r; [left; apply Rinv_0_lt_compat; nra|].
    assert (HD' : (IZR (s * s) + IZR n - 1 <= IZR (n * q))%R) by (rewrite <- plus_IZR, <- minus_IZR; apply IZR_le; lia).
    assert (HB : (IZR (n * q) <= IZR n * IZR (2 ^ 50))%R) by (rewrite <- mult_IZR; apply IZR_le; nia).
    assert (UN : (u * IZR (2 ^ 50) = / 8)%R).
    { unfold u. change (2 ^ 53)%Z with (8 * 2 ^ 50)%Z. rewrite mult_IZR. field. apply IZR_neq. discriminate. }
    assert (SS : (IZR (s * s) <= IZR n * IZR (2 ^ 50))%R) by lra.
    assert (US : (IZR (s * s) * u <= IZR n * / 8)%R) by (rewrite <- UN; nra). lra.
Qed.

(** ** The variance *)
Lemma variance_nonneg : forall L K l a b c, squares L -> K <= 2 ^ 50 -> 2 <= lenZ l ->
  exactly K (zq (zsum l)) a -> exactly K (zq (sq l)) b -> exactly K (zq (lenZ l)) c ->
  is_finite (fvar_of L a b c) = true /\ (0 <= B2R (fvar_of L a b c))%R.
Proof.
  intros L K l a b c HL HK HN Ha Hb Hc. set (n := lenZ l) in *.
  destruct (safe_exact K _ _ Hc) as (z & Ez & Hz & Fn & Rn); [pose proof (exactly_pos _ _ _ Hc); destruct Hc as (_ & w & E & _ & B); apply zq_inj in E; lia|].
  assert (z = n). { unfold safe in Ez. rewrite Qclt_zq in Ez. destruct (0 <? n) eqn:E; [|apply Z.ltb_ge in E; lia]. apply zq_inj in Ez. auto. } subst z.
  unfold fvar_of. set (N := fsafe c) in *.
  destruct Ha as (Fa & s & Es & Ra & Bs). apply zq_inj in Es. subst s.
  destruct Hb as (Fb & q & Eq & Rb & Bq). apply zq_inj in Eq. subst q.
  assert (NP : (2 <= IZR n)%R) by (apply (IZR_le 2); exact HN).
  assert (NU : (IZR n <= IZR (2 ^ 53))%R) by (apply IZR_le; lia).
  assert (P53 : IZR (2 ^ 53) = bpow radix2 53) by reflexivity.
  assert (QB : forall k, Z.abs k <= 2 ^ 53 -> (Rabs (IZR k / IZR n) <= bpow radix2 53)%R).
  { intros k Hk. eapply Rle_trans; [apply quotient_bound; lia|]. rewrite <- P53. apply IZR_le. exact Hk. }
  assert (B200 : (bpow radix2 53 <= bpow radix2 200)%R) by (apply bpow_le; lia).
  destruct (near_div b N Fb) as [F1 R1]; [rewrite Rn; lra|rewrite Rb, Rn; pose proof (QB (sq l) ltac:(lia)); lra|].
  destruct (near_div a N Fa) as [F2 R2]; [rewrite Rn; lra|rewrite Ra, Rn; pose proof (QB (zsum l) ltac:(lia)); lra|].
  rewrite Rb, Rn in R1. rewrite Ra, Rn in R2.
  set (u := ddiv b N) in *. set (v := ddiv a N) in *.
  assert (U : (Rabs (B2R u) <= bpow radix2 53)%R) by (rewrite R1; apply rnd_bpow; [lia|apply QB; lia]).
  assert (V : (Rabs (B2R v) <= bpow radix2 53)%R) by (rewrite R2; apply rnd_bpow; [lia|apply QB; lia]).
  destruct (HL v F2) as [F3 R3]; [rewrite P53; exact V|]. set (w := pow2 L v) in *.
  assert (W : (Rabs (B2R w) <= bpow radix2 106)%R).
  { rewrite R3. apply rnd_bpow; [lia|]. rewrite Rabs_mult. change 106 with (53 + 53). rewrite bpow_plus. apply Rmult_le_compat; auto using Rabs_pos. }
  assert (UW : (B2R w <= B2R u)%R).
  { rewrite R1, R3, R2. apply rnd_le. apply square_of_average; lia. }
  destruct (near_minus u w F1 F3) as [F4 R4].
  { eapply Rle_trans; [apply Rabs_triang|]. rewrite Rabs_Ropp. apply Rle_trans with (bpow radix2 106 + bpow radix2 106)%R; [assert (bpow radix2 53 <= bpow radix2 106)%R by (apply bpow_le; lia); lra|].
    replace (bpow radix2 106 + bpow radix2 106)%R with (bpow radix2 107); [apply bpow_le; lia|]. change 107 with (106 + 1). rewrite bpow_plus. change (bpow radix2 1) with 2%R. ring. }
  set (r := dminus u w) in *.
  assert (RP : (0 <= B2R r)%R) by (rewrite R4; apply rnd_nonneg; lra).
  assert (RU : (B2R r <= bpow radix2 107)%R).
  { assert (Rabs (B2R r) <= bpow radix2 107)%R; [|pose proof (Rle_abs (B2R r)); lra]. rewrite R4. apply rnd_bpow; [lia|].
    eapply Rle_trans; [apply Rabs_triang|]. rewrite Rabs_Ropp. change 107 with (106 + 1). rewrite bpow_plus. change (bpow radix2 1) with 2%R. assert (bpow radix2 53 <= bpow radix2 106)%R by (apply bpow_le; lia). lra. }
  assert (RN : (0 <= B2R r * B2R N <= bpow radix2 160)%R).
  { rewrite Rn. split; [nra|]. change 160 with (107 + 53). rewrite bpow_plus. apply Rmult_le_compat; lra. }
  destruct (near_times r N F4 Fn) as [F5 R5]; [rewrite Rabs_pos_eq by apply RN; apply Rle_trans with (bpow radix2 160); [apply RN|apply bpow_le; lia]|].
  set (t := dtimes r N) in *.
  assert (TP : (0 <= B2R t <= bpow radix2 160)%R).
  { rewrite R5. split; [apply rnd_nonneg; apply RN|]. assert (Rabs (rnd (B2R r * B2R N)) <= bpow radix2 160)%R; [|pose proof (Rle_abs (rnd (B2R r * B2R N))); lra].
    apply rnd_bpow; [lia|]. rewrite Rabs_pos_eq by apply RN. apply RN. }
  assert (N1 : exactly n (zq n) N) by (split; [exact Fn|]; exists n; repeat split; auto; lia).
  pose proof (exactly_minus _ _ _ _ _ _ N1 (exactly_dz 1 ltac:(lia)) ltac:(lia)) as (F6 & m & E6 & R6 & _).
  rewrite zq_minus in E6. apply zq_inj in E6. subst m. fold done in R6, F6. rewrite minus_IZR in R6.
  assert (QT : (0 <= B2R t / B2R (dminus N done) <= bpow radix2 160)%R).
  { rewrite R6. unfold Rdiv. assert (0 < / (IZR n - 1) <= 1)%R. { split; [apply Rinv_0_lt_compat; lra|]. rewrite <- Rinv_1. apply Rinv_le_contravar; lra. }
    split; [apply Rmult_le_pos; lra|]. apply Rle_trans with (B2R t * 1)%R; [apply Rmult_le_compat_l; lra|lra]. }
  destruct (near_div t (dminus N done) F5) as [F7 R7]; [rewrite R6; lra|rewrite Rabs_pos_eq by apply QT; apply Rle_trans with (bpow radix2 160); [apply QT|apply bpow_le; lia]|].
  split; [exact F7|]. rewrite R7. apply rnd_nonneg. apply QT.
Qed.

(** ** Histories of [mean] *)

Lemma integer_values : forall M cs, Forall (integral_call M) cs -> (forall c, In c cs -> mean_call c) ->
  exists l, flat_map mean_values cs = map zq l.
Proof.
  intros M cs HI HC. assert (G : forall l, (forall q, In q l -> exists z, q = zq z) -> exists k, l = map zq k).
  { induction l as [|q l IH]; intros H; [exists []; reflexivity|]. destruct (H q (or_introl eq_refl)) as [z ->]. destruct IH as [k ->]; [intros; apply H; right; auto|]. exists (z :: k). reflexivity. }
  apply G. intros q Hq. apply in_flat_map in Hq. destruct Hq as (c & Hc & Hq). pose proof (proj1 (Forall_forall _ _) HI c Hc) as I. specialize (HC c Hc).
  destruct c; try contradiction; cbn [mean_values integral_call] in *.
  - destruct I as [_ I]. destruct (I q Hq) as (z & -> & _). eauto.
  - destruct I as (_ & I & _). apply in_map_iff in Hq. destruct Hq as ([a b] & <- & Hq). apply filter_In in Hq. destruct Hq as [Hq _]. apply in_combine_l in Hq.
    destruct (I a Hq) as (z & -> & _). exists z. reflexivity.
Qed.

Lemma sums_of_integers : forall l, sum_over (map zq l) (fun x => x) = zq (zsum l) /\ sum_over (map zq l) (fun x => x * x)%Qc = zq (sq l).
Proof.
  induction l as [|z l [I1 I2]]; [split; reflexivity|]. unfold sum_over in *. cbn [map fold_right sq]. rewrite I1, I2.
  change (zsum (z :: l)) with (z + zsum l). rewrite DoubleProofs.zq_times, !DoubleProofs.zq_plus. split; reflexivity.
Qed.

Lemma mean_history : forall L M asrt roi per var cs ds,
  library L -> 1 <= M -> Forall (fun n => n = 1) roi -> (length roi <= 3)%nat ->
  Forall2 same_call cs ds -> Forall (integral_call M) cs -> all_calls roi var M cs <= 2 ^ 53 ->
  (forall c, In c cs -> mean_call c) -> 1 <= lenZ (flat_map mean_values cs) ->
  let K := all_calls roi var M cs in
  exists l x a b c, flat_map mean_values cs = map zq l /\
    (x0 <- fensemble asrt roi per var ;; frun L asrt ds x0) = Ok x /\ f_stat x = S_mean /\
    dat (f_first x) = [a] /\ dat (f_second x) = [b] /\ dat (f_norm x) = [c] /\
    exactly K (zq (zsum l)) a /\ exactly K (zq (sq l)) b /\ exactly K (zq (lenZ l)) c.
Proof.
  intros L M asrt roi per var cs ds HL HM H1 HR HC HI HB HMC HN K.
  assert (H0 : Forall (fun n => 0 <= n) roi) by (eapply Forall_impl; [|exact H1]; cbn; intros; lia).
  destruct (integer_values M cs HI HMC) as [l El].
  pose proof (histories_sim L M asrt roi per var cs ds HL HM H0 HC HI HB) as S1.
  destruct (ensemble asrt roi per var) as [e0| | |] eqn:EE.
  2-4: exfalso; unfold ensemble in EE; destruct roi as [|r1 [|r2 [|r3 [|]]]]; cbn [length] in HR; try lia; destruct asrt; discriminate.
  destruct (mean_data asrt roi per var e0 cs H1 HR EE HMC) as (e & ER & Da & Db & Dc & ST). rewrite El in *. cbn [bind] in S1. rewrite ER in S1.
  destruct (x0 <- fensemble asrt roi per var ;; frun L asrt ds x0) as [x| | |] eqn:EX; cbn [alike] in S1; try contradiction.
  destruct S1 as (T1 & _ & _ & _ & (_ & _ & _ & F1) & (_ & _ & _ & F2) & (_ & _ & _ & F3)). destruct (sums_of_integers l) as [Q1 Q2].
  rewrite Da, Q1 in F1. rewrite Db, Q2 in F2. rewrite Dc in F3. unfold lenZ in F3. rewrite map_length in F3.
  inversion F1 as [|? a ? ? A1 A2]; subst. inversion A2; subst. inversion F2 as [|? b ? ? B1 B2]; subst. inversion B2; subst. inversion F3 as [|? c ? ? C1 C2]; subst. inversion C2; subst.
  exists l, x, a, b, c. split; [reflexivity|]. split; [reflexivity|]. split; [rewrite <- T1; apply ST; exact HN|]. repeat split; auto; try apply A1; try apply B1; try apply C1.
Qed.

Lemma mean_in_range : forall L M asrt roi per var cs ds lo hi,
  library L -> 1 <= M -> Forall (fun n => n = 1) roi -> (length roi <= 3)%nat ->
  Forall2 same_call cs ds -> Forall (integral_call M) cs -> all_calls roi var M cs <= 2 ^ 53 ->
  (forall c, In c cs -> mean_call c) -> 1 <= lenZ (flat_map mean_values cs) ->
  (forall q, In q (flat_map mean_values cs) -> zq lo <= q <= zq hi)%Qc -> Z.abs lo <= 2 ^ 53 -> Z.abs hi <= 2 ^ 53 ->
  exists x v, (x0 <- fensemble asrt roi per var ;; frun L asrt ds x0) = Ok x /\
    fresult L x = [v] /\ is_finite v = true /\ (IZR lo <= B2R v <= IZR hi)%R.
Proof.
  intros L M asrt roi per var cs ds lo hi HL HM H1 HR HC HI HB HMC HN HV Blo Bhi.
  destruct (mean_history L M asrt roi per var cs ds HL HM H1 HR HC HI HB HMC HN) as (l & x & a & b & c & El & EX & ST & D1 & D2 & D3 & Ea & Eb & Ec).
  set (K := all_calls roi var M cs) in *. rewrite El in *. assert (LN : lenZ (map zq l) = lenZ l) by (unfold lenZ; rewrite map_length; reflexivity). rewrite LN in HN.
  assert (HK : 1 <= K) by (destruct Ec as (_ & w & E & _ & B); apply DoubleProofs.zq_inj in E; lia).
  exists x, (ddiv a (fsafe c)). split; [exact EX|]. split; [unfold fresult; rewrite ST, D1, D3; reflexivity|].
  destruct (division K _ _ a c HB Ea Ec HK) as [F R]. split; [exact F|]. rewrite R.
  replace (safe (zq (lenZ l))) with (zq (lenZ l)) by (unfold safe; rewrite Qclt_zq; destruct (0 <? lenZ l) eqn:E; [reflexivity|apply Z.ltb_ge in E; lia]).
  rewrite Q2R_div_zq by lia. set (n := lenZ l) in *. assert (NP : (1 <= IZR n)%R) by (apply (IZR_le 1); exact HN).
  assert (RNG : lo * n <= zsum l <= hi * n).
  { assert (HV' : forall z, In z l -> lo <= z <= hi).
    { intros z Hz. destruct (HV (zq z)) as [A B]; [apply in_map; exact Hz|]. unfold Qcle, zq, Q2Qc in A, B. cbn [this] in A, B. rewrite !Qred_correct in A, B.
      unfold Qle, inject_Z in A, B. cbn in A, B. lia. }
    unfold n. clear - HV'. induction l as [|z l IH]; [unfold lenZ; cbn; lia|]. specialize (IH ltac:(intros; apply HV'; right; auto)). pose proof (HV' z (or_introl eq_refl)).
    unfold lenZ in *. cbn [length]. rewrite Nat2Z.inj_succ. change (zsum (z :: l)) with (z + zsum l). lia. }
  assert (G : forall k, Z.abs k <= 2 ^ 53 -> rnd (IZR k) = IZR k) by (intros k Hk; exact (int_round k Hk)).
  rewrite <- (G lo Blo), <- (G hi Bhi).
  assert (DV : forall p q, (p * IZR n <= q)%R -> (p <= q / IZR n)%R).
  { intros p q H. apply Rmult_le_reg_r with (IZR n); [lra|]. unfold Rdiv. rewrite Rmult_assoc, Rinv_l by lra. lra. }
  assert (DU : forall p q, (q <= p * IZR n)%R -> (q / IZR n <= p)%R).
  { intros p q H. apply Rmult_le_reg_r with (IZR n); [lra|]. unfold Rdiv. rewrite Rmult_assoc, Rinv_l by lra. lra. }
  split; apply rnd_le; [apply DV|apply DU]; rewrite <- mult_IZR; apply IZR_le; lia.
Qed.

Lemma variance_sign : forall L M asrt roi per var cs ds,
  library L -> squares L -> 1 <= M -> Forall (fun n => n = 1) roi -> (length roi <= 3)%nat ->
  Forall2 same_call cs ds -> Forall (integral_call M) cs -> all_calls roi var M cs <= 2 ^ 50 ->
  (forall c, In c cs -> mean_call c) -> 2 <= lenZ (flat_map mean_values cs) ->
  exists x v, (x0 <- fensemble asrt roi per var ;; frun L asrt ds x0) = Ok x /\
    fvariance L x = Ok [v] /\ is_finite v = true /\ (0 <= B2R v)%R.
Proof.
  intros L M asrt roi per var cs ds HL HS HM H1 HR HC HI HB HMC HN.
  destruct (mean_history L M asrt roi per var cs ds HL HM H1 HR HC HI ltac:(lia) HMC ltac:(lia)) as (l & x & a & b & c & El & EX & ST & D1 & D2 & D3 & Ea & Eb & Ec).
  rewrite El in HN. unfold lenZ in HN. rewrite map_length in HN.
  exists x, (fvar_of L a b c). split; [exact EX|]. split; [unfold fvariance; rewrite ST, D1, D2, D3; reflexivity|].
  apply variance_nonneg with (K := all_calls roi var M cs) (l := l); auto.
Qed.

Lemma plain_squares : squares plain.
Proof.
  intros x F B. cbn [pow2 plain]. apply near_times; auto. rewrite Rabs_mult. apply Rle_trans with (bpow radix2 53 * bpow radix2 53)%R.
  - apply Rmult_le_compat; auto using Rabs_pos.
  - rewrite <- bpow_plus. apply bpow_le. lia.
Qed.

(** Three times 0.1. *)
Lemma read_signs : forall v r, is_finite v = true ->
  (x <- r ;; y <- fvariance plain x ;; Ok (map (fun w => (is_finite w, Bltb v w)) (fresult plain x), map (fun w => (is_finite w, Bltb w dzero)) y)) =
    Ok ([(true, true)], [(true, true)]) ->
  exists x m y, r = Ok x /\ fresult plain x = [m] /\ fvariance plain x = Ok [y] /\ (B2R v < B2R m)%R /\ (B2R y < 0)%R.
Proof.
  intros v r FV H. destruct r as [x| | |]; cbn [bind] in H; try discriminate.
  destruct (fvariance plain x) as [y| | |] eqn:EV; cbn [bind] in H; try discriminate.
  destruct (fresult plain x) as [|m [|]] eqn:EM; cbn [map] in H; try discriminate. destruct y as [|y [|]]; cbn [map] in H; try discriminate.
  injection H as FM A FY B. exists x, m, y. split; [reflexivity|]. split; [exact EM|]. split; [exact EV|].
  rewrite Bltb_correct in A by assumption. rewrite Bltb_correct in B by (try assumption; reflexivity).
  split; [destruct (Rlt_bool_spec (B2R v) (B2R m)); [assumption|discriminate]|].
  change (B2R dzero) with 0%R in B. destruct (Rlt_bool_spec (B2R y) 0); [assumption|discriminate].
Qed.

Lemma range_refuted : forall asrt, exists L v x m y,
  library L /\ squares L /\ is_finite v = true /\
  (x0 <- fensemble asrt [1] false false ;; frun L asrt [FMean (mkimg [3] [v; v; v])] x0) = Ok x /\
  fresult L x = [m] /\ fvariance L x = Ok [y] /\ (B2R v < B2R m)%R /\ (B2R y < 0)%R.
Proof.
  intros asrt. exists plain, (ddiv done (dz 10)).
  destruct (read_signs (ddiv done (dz 10)) (x0 <- fensemble asrt [1] false false ;;
    frun plain asrt [FMean (mkimg [3] [ddiv done (dz 10); ddiv done (dz 10); ddiv done (dz 10)])] x0)) as (x & m & y & H).
  - vm_compute. reflexivity.
  - destruct asrt; vm_compute; reflexivity.
  - exists x, m, y. split; [apply plain_library|]. split; [apply plain_squares|]. split; [vm_compute; reflexivity|]. exact H.
Qed.
