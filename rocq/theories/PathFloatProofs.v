(** * PathFloatProofs: in [double]s the paths [actual] and [full] are those of exact arithmetic (proofs only) *)

From Coq Require Import ZArith QArith Qabs Qreals Reals List Bool Lia Lra Psatz.
From Flocq Require Import Core BinarySingleNaN.
From Verif Require Import Base BaseLemmas Path SpecPath PathProofs LineProofs LineGeom Double SpecDouble DoubleProofs EnsembleFloatMean PathFloat.
Import ListNotations.
Open Scope Z_scope.

Local Notation rnd := (round radix2 (FLT_exp (-1074) 53) ZnearestE).

(** ** Rounding *)
Lemma rnd_err : forall r e, -1000 <= e -> (Rabs r <= bpow radix2 e)%R -> (Rabs (rnd r - r) <= bpow radix2 (e - 53))%R.
Proof.
  intros r e He H. eapply Rle_trans; [apply error_le_half_ulp; apply FLT_exp_valid; reflexivity|].
  assert (U : (ulp radix2 (FLT_exp (-1074) 53) r <= bpow radix2 (e - 52))%R).
  { apply Rle_trans with (ulp radix2 (FLT_exp (-1074) 53) (bpow radix2 e)).
    - apply ulp_le; [apply FLT_exp_valid; reflexivity|apply FLT_exp_monotone|]. rewrite (Rabs_pos_eq (bpow radix2 e)) by apply bpow_ge_0. exact H.
    - rewrite ulp_bpow. apply bpow_le. unfold FLT_exp. lia. }
  replace (e - 52) with (e - 53 + 1) in U by lia. rewrite bpow_plus in U. change (bpow radix2 1) with 2%R in U. lra.
Qed.

Lemma near_plus : forall x y, is_finite x = true -> is_finite y = true -> (Rabs (B2R x + B2R y) <= bpow radix2 200)%R ->
  nearest_double (B2R x + B2R y)%R (dplus x y).
Proof.
  intros x y Fx Fy H. pose proof (Bplus_correct 53 1024 precision exponent mode_NE x y Fx Fy) as C.
  change (SpecFloat.fexp 53 1024) with (FLT_exp (-1074) 53) in C. change (round_mode mode_NE) with ZnearestE in C.
  rewrite rnd_small in C by exact H. destruct C as (C1 & C2 & _). split; [exact C2|exact C1].
Qed.

Lemma rnd_half : forall k, Z.abs k <= 2 ^ 50 -> rnd (IZR k / 2) = (IZR k / 2)%R.
Proof.
  intros k Hk. apply round_generic; [apply valid_rnd_N|]. apply generic_format_FLT. exists (Float radix2 k (-1)).
  - unfold F2R. cbn [Fnum Fexp]. change (bpow radix2 (-1)) with (/ 2)%R. reflexivity.
  - cbn [Fnum]. change (radix2 ^ 53) with (2 ^ 53). lia.
  - cbn [Fexp]. lia.
Qed.

Lemma dz_value : forall z, Z.abs z <= 2 ^ 53 -> is_finite (dz z) = true /\ B2R (dz z) = IZR z.
Proof. intros z H. destruct (exactly_dz z H) as (F & w & E & R & _). apply zq_inj in E. subst w. auto. Qed.

Lemma p2 : forall e, 0 <= e -> bpow radix2 e = IZR (2 ^ e).
Proof. intros e H. symmetry. apply (IZR_Zpower radix2). exact H. Qed.

Lemma p2n : forall e, e <= 0 -> bpow radix2 e = (/ IZR (2 ^ (- e)))%R.
Proof. intros e H. rewrite <- (p2 (- e)), <- bpow_opp, Z.opp_involutive by lia. reflexivity. Qed.

Lemma half_value : is_finite half = true /\ B2R half = (/ 2)%R.
Proof.
  destruct (dz_value 1 ltac:(lia)) as [F1 R1]. destruct (dz_value 2 ltac:(lia)) as [F2 R2].
  unfold half, done. destruct (near_div (dz 1) (dz 2) F1) as [F R]; [rewrite R2; lra| |].
  - rewrite R1, R2, Rabs_pos_eq by lra. apply Rle_trans with 1%R; [lra|]. change 1%R with (bpow radix2 0). apply bpow_le. lia.
  - split; [exact F|]. rewrite R, R1, R2. replace (1 / 2)%R with (IZR 1 / 2)%R by reflexivity. rewrite rnd_half by (cbn; lia). lra.
Qed.

Lemma tolerance_value : is_finite tolerance = true /\ rnd (B2R tolerance) = B2R tolerance /\
  (bpow radix2 (-20) <= B2R tolerance <= 1 / 1000000 + bpow radix2 (-72))%R.
Proof.
  destruct (dz_value 1 ltac:(lia)) as [F1 R1]. destruct (dz_value 1000000 ltac:(lia)) as [F2 R2].
  assert (B : (Rabs (1 / 1000000) <= bpow radix2 (-19))%R).
  { rewrite Rabs_pos_eq by lra. rewrite (p2n (-19)) by lia. change (2 ^ (- (-19))) with 524288. lra. }
  unfold tolerance, done. destruct (near_div (dz 1) (dz 1000000) F1) as [F R]; [rewrite R2; lra| |].
  - rewrite R1, R2. eapply Rle_trans; [exact B|]. apply bpow_le. lia.
  - split; [exact F|]. rewrite R1, R2 in R. split.
    + apply round_generic; [apply valid_rnd_N|]. apply (generic_format_B2R 53 1024).
    + rewrite R. split.
      * rewrite <- (round_generic radix2 (FLT_exp (-1074) 53) ZnearestE (bpow radix2 (-20))); [|apply generic_format_bpow; unfold FLT_exp; lia].
        apply rnd_le. rewrite (p2n (-20)) by lia. change (2 ^ (- (-20))) with 1048576. lra.
      * pose proof (rnd_err (1 / 1000000) (-19) ltac:(lia) B) as E. change (-19 - 53) with (-72) in E. apply Rabs_le_inv in E. lra.
Qed.

(** ** Crossings *)
Definition mm (d : dimn) : Z := Z.abs (d_c d - d_from d).
Definition theta_R (d : dimn) : R := (IZR (2 * mm d + 1) / IZR (2 * aa d))%R.

Lemma ok_mm : forall w tau d m, ok w tau d m -> m = mm d.
Proof.
  intros w tau d m [Hc Hm _ _ _]. unfold mm. rewrite Hc. unfold sign, aa, vv in *.
  destruct (Z.lt_trichotomy (d_to d - d_from d) 0) as [L|[E|L]].
  - rewrite (Z.sgn_neg _ L). lia.
  - rewrite E in *. cbn in *. lia.
  - rewrite (Z.sgn_pos _ L). lia.
Qed.

Lemma aa_pos_R : forall d, active d = true -> (1 <= IZR (aa d))%R.
Proof. intros d H. apply active_iff in H. apply IZR_le. unfold aa. lia. Qed.

Lemma theta_Q2R : forall d, active d = true -> Q2R (theta d (mm d)) = theta_R d.
Proof.
  intros d H. pose proof (aa_pos_R d H). unfold theta, theta_R, uu. rewrite Q2R_mult, Q2R_inv.
  - unfold Q2R, inject_Z. cbn [Qnum Qden]. unfold Rdiv. rewrite !Rinv_1, !Rmult_1_r. reflexivity.
  - change 0%Q with (inject_Z 0). rewrite inject_Z_injective. apply active_iff in H. unfold aa. lia.
Qed.

Definition gap : R := (1 / (2 * 499849))%R.

Lemma theta_gap_R : forall d d', active d = true -> active d' = true -> aa d <= 707 -> aa d' <= 707 ->
  (theta_R d' < theta_R d)%R -> (gap <= theta_R d - theta_R d')%R.
Proof.
  intros d d' H H' B B' L. pose proof (aa_pos_R d H) as P. pose proof (aa_pos_R d' H') as P'.
  set (N := (2 * mm d + 1) * aa d' - (2 * mm d' + 1) * aa d).
  assert (E : (theta_R d - theta_R d' = IZR N / (2 * (IZR (aa d) * IZR (aa d'))))%R).
  { unfold theta_R, N. rewrite minus_IZR, !mult_IZR. field. lra. }
  assert (PP : (0 < 2 * (IZR (aa d) * IZR (aa d')))%R) by nra.
  assert (HN : 1 <= N).
  { destruct (Z_lt_le_dec N 1) as [X|X]; [|exact X]. exfalso. assert (IZR N <= 0)%R by (apply IZR_le; lia).
    assert (0 < IZR N / (2 * (IZR (aa d) * IZR (aa d'))))%R by lra.
    assert (IZR N / (2 * (IZR (aa d) * IZR (aa d'))) <= 0)%R; [|lra]. unfold Rdiv. pose proof (Rinv_0_lt_compat _ PP). nra. }
  rewrite E. unfold gap. apply IZR_le in HN. apply Rle_trans with (1 / (2 * (IZR (aa d) * IZR (aa d'))))%R.
  - unfold Rdiv. rewrite !Rmult_1_l. apply Rinv_le_contravar; [exact PP|]. apply IZR_le in B, B'. nra.
  - unfold Rdiv. apply Rmult_le_compat_r; [apply Rlt_le, Rinv_0_lt_compat; exact PP|lra].
Qed.

(** ** State of the two programs *)
Definition eps : R := bpow radix2 (-37).

(** [w] and [tau]: as in [ok]; [tau] is what the floating point code holds. *)
Record rel (w tau : R) (d : dimn) (g : fdimn) : Prop := {
  r_from : g_from g = d_from d; r_to : g_to g = d_to d; r_c : g_c g = d_c d;
  r_v : g_v g = dz (vv d); r_isign : g_isign g = sign d;
  r_small : aa d <= 707 /\ Z.abs (d_from d) <= 4096;
  r_count : mm d <= aa d;
  r_w : active d = true -> IZR (d_from d) = (w * IZR (vv d))%R;
  r_sign : active d = true -> is_finite (g_sign g) = true /\ B2R (g_sign g) = IZR (sign d);
  r_next : active d = true -> is_finite (g_next g) = true /\ B2R (g_next g) = (IZR (sign d) * (IZR (2 * mm d + 1) / 2))%R;
  r_x : active d = true -> is_finite (g_x g) = true /\
          (Rabs (B2R (g_x g) - (IZR (d_from d) + IZR (vv d) * tau)) <= bpow radix2 (-38))%R
}.

Lemma factive_eq : forall w tau d g, rel w tau d g -> factive g = active d.
Proof.
  intros w tau d g H. unfold factive, active. f_equal. rewrite (r_v _ _ _ _ H). fold (vv d). pose proof (proj1 (r_small _ _ _ _ H)) as B.
  unfold deq. destruct (dz_value (vv d)) as [F R]; [unfold aa in B; lia|]. rewrite Beqb_correct by (auto; reflexivity). rewrite R. cbn [B2R dzero].
  destruct (Req_bool_spec (IZR (vv d)) 0) as [E|E]; destruct (Z.eqb_spec (vv d) 0) as [E'|E']; auto.
  - exfalso. apply E'. apply eq_IZR. exact E.
  - exfalso. apply E. rewrite E'. reflexivity.
Qed.

(** The bound on [v tau] that keeps all errors small. *)
Definition tame (tau : R) (d : dimn) : Prop := (Rabs (IZR (vv d) * tau) <= 8000)%R.

Lemma vv_sign : forall d, IZR (vv d) = (IZR (sign d) * IZR (aa d))%R.
Proof. intros d. rewrite <- mult_IZR. f_equal. unfold sign, aa, vv. rewrite Z.mul_comm. symmetry. apply Z.abs_sgn. Qed.

Lemma sign_abs : forall d, active d = true -> Rabs (IZR (sign d)) = 1%R.
Proof.
  intros d H. destruct (sgn_cases d H) as [[_ S]|[_ S]]; rewrite S; [apply Rabs_R1|]. replace (IZR (-1)) with (- (1))%R by (simpl; lra). rewrite Rabs_Ropp. apply Rabs_R1.
Qed.

Lemma fdist_near : forall w tau d g, rel w tau d g -> active d = true -> tame tau d ->
  is_finite (fdist g) = true /\ (Rabs (B2R (fdist g) - (theta_R d - w - tau)) <= eps)%R.
Proof.
  intros w tau d g H A T. destruct (r_small _ _ _ _ H) as [B1 B2]. pose proof (r_count _ _ _ _ H) as HC.
  destruct (r_next _ _ _ _ H A) as [Fn Rn]. destruct (r_x _ _ _ _ H A) as [Fx Rx]. pose proof (r_w _ _ _ _ H A) as Hw.
  destruct (dz_value (vv d)) as [Fv Rv]; [unfold aa in B1; lia|].
  assert (V0 : IZR (vv d) <> 0%R) by (apply active_iff in A; intros E; apply A; apply eq_IZR; exact E).
  assert (V1 : (1 <= Rabs (IZR (vv d)))%R) by (rewrite <- abs_IZR; apply (aa_pos_R d A)).
  set (v := IZR (vv d)) in *. set (a := IZR (d_from d)) in *. set (n := (IZR (sign d) * (IZR (2 * mm d + 1) / 2))%R) in *.
  assert (Bn : (Rabs n <= 708)%R).
  { unfold n. rewrite Rabs_mult, (sign_abs d A), Rmult_1_l. unfold Rdiv. rewrite Rabs_mult, (Rabs_pos_eq (/ 2)) by lra. rewrite <- abs_IZR.
    assert (IZR (Z.abs (2 * mm d + 1)) <= 1415)%R by (apply IZR_le; unfold mm in *; lia). lra. }
  assert (Ba : (Rabs a <= 4096)%R) by (unfold a; rewrite <- abs_IZR; apply IZR_le; exact B2).
  assert (S38 : (0 < bpow radix2 (-38) <= 1)%R) by (split; [apply bpow_gt_0|change 1%R with (bpow radix2 0); apply bpow_le; lia]).
  set (x := B2R (g_x g)) in *.
  assert (Bx : (Rabs x <= 12097)%R).
  { replace x with ((x - (a + v * tau)) + (a + v * tau))%R by ring. eapply Rle_trans; [apply Rabs_triang|]. pose proof (Rabs_triang a (v * tau)). unfold tame in T. fold v in T. lra. }
  assert (Bnx : (Rabs (n - x) <= bpow radix2 14)%R).
  { eapply Rle_trans; [apply Rabs_triang|]. rewrite Rabs_Ropp. rewrite (p2 14) by lia. change (2 ^ 14) with 16384. lra. }
  assert (L200 : (bpow radix2 14 <= bpow radix2 200)%R) by (apply bpow_le; lia).
  destruct (near_minus (g_next g) (g_x g) Fn Fx) as [F1 R1]; [rewrite Rn; fold x n; lra|]. rewrite Rn in R1. fold x n in R1.
  pose proof (rnd_err _ 14 ltac:(lia) Bnx) as E1. rewrite <- R1 in E1. change (14 - 53) with (-39) in E1.
  pose proof (rnd_bpow _ 14 ltac:(lia) Bnx) as Bu. rewrite <- R1 in Bu. set (u := B2R (dminus (g_next g) (g_x g))) in *.
  assert (Iv : (Rabs (/ v) <= 1)%R).
  { rewrite Rabs_inv. rewrite <- Rinv_1. apply Rinv_le_contravar; lra. }
  assert (Buv : (Rabs (u / v) <= bpow radix2 14)%R).
  { unfold Rdiv. rewrite Rabs_mult. pose proof (Rabs_pos u). pose proof (Rabs_pos (/ v)). nra. }
  unfold fdist. rewrite (r_v _ _ _ _ H).
  destruct (near_div (dminus (g_next g) (g_x g)) (dz (vv d)) F1) as [F2 R2]; [rewrite Rv; exact V0|rewrite Rv; fold u v; lra|].
  rewrite Rv in R2. fold u v in R2. split; [exact F2|]. rewrite R2.
  pose proof (rnd_err _ 14 ltac:(lia) Buv) as E2. change (14 - 53) with (-39) in E2.
  assert (ET : (theta_R d - w - tau = (n - (a + v * tau)) / v)%R).
  { assert (En : (n / v = theta_R d)%R).
    { unfold n, v, theta_R. rewrite vv_sign. destruct (sgn_cases d A) as [[_ S]|[_ S]]; rewrite S; pose proof (aa_pos_R d A); rewrite !mult_IZR; [|replace (IZR (-1)) with (- (1))%R by (simpl; lra)]; field; lra. }
    rewrite <- En, Hw. field. exact V0. }
  rewrite ET.
  replace (rnd (u / v) - (n - (a + v * tau)) / v)%R with ((rnd (u / v) - u / v) + (u - (n - x)) * / v + - ((x - (a + v * tau)) * / v))%R by (field; exact V0).
  eapply Rle_trans; [apply Rabs_triang|]. rewrite Rabs_Ropp. pose proof (Rabs_triang (rnd (u / v) - u / v) ((u - (n - x)) * / v)) as TR.
  rewrite !Rabs_mult in *. pose proof (Rabs_pos (u - (n - x))). pose proof (Rabs_pos (x - (a + v * tau))). pose proof (Rabs_pos (/ v)).
  assert (M1 : (Rabs (u - (n - x)) * Rabs (/ v) <= bpow radix2 (-39))%R) by nra.
  assert (M2 : (Rabs (x - (a + v * tau)) * Rabs (/ v) <= bpow radix2 (-38))%R) by nra.
  unfold eps. replace (bpow radix2 (-37)) with (2 * bpow radix2 (-38))%R by (change (-37) with (-38 + 1); rewrite bpow_plus; change (bpow radix2 1) with 2%R; ring).
  replace (bpow radix2 (-38)) with (2 * bpow radix2 (-39))%R in * by (change (-38) with (-39 + 1); rewrite bpow_plus; change (bpow radix2 1) with 2%R; ring).
  lra.
Qed.

(** ** The minimum *)
Lemma dlt_R : forall x y, is_finite x = true -> is_finite y = true -> dlt x y = Rlt_bool (B2R x) (B2R y).
Proof. intros. apply Bltb_correct; assumption. Qed.

Lemma ftmin_from_spec : forall L t, is_finite t = true -> (forall g, In g L -> is_finite (fdist g) = true) ->
  is_finite (ftmin_from t L) = true /\
  (ftmin_from t L = t \/ exists g, In g L /\ ftmin_from t L = fdist g) /\
  (B2R (ftmin_from t L) <= B2R t)%R /\ forall g, In g L -> (B2R (ftmin_from t L) <= B2R (fdist g))%R.
Proof.
  induction L as [|g L IH]; intros t Ft FL; cbn [ftmin_from].
  - split; [exact Ft|]. split; [auto|]. split; [lra|]. intros g [].
  - assert (Fg : is_finite (fdist g) = true) by (apply FL; simpl; auto).
    assert (FL' : forall x, In x L -> is_finite (fdist x) = true) by (intros; apply FL; simpl; auto).
    rewrite dlt_R by assumption. destruct (Rlt_bool_spec (B2R (fdist g)) (B2R t)) as [E|E].
    + destruct (IH (fdist g) Fg FL') as (H0 & H1 & H2 & H3). split; [exact H0|]. split; [|split].
      * right. destruct H1 as [->|(d' & Hd' & ->)]; [exists g; simpl; auto|exists d'; simpl; auto].
      * lra.
      * intros x [<-|Hx]; auto.
    + destruct (IH t Ft FL') as (H0 & H1 & H2 & H3). split; [exact H0|]. split; [|split].
      * destruct H1 as [->|(d' & Hd' & ->)]; [auto|right; exists d'; simpl; auto].
      * exact H2.
      * intros x [<-|Hx]; auto. lra.
Qed.

Lemma ftmin_spec : forall L, (forall g, In g L -> factive g = true -> is_finite (fdist g) = true) ->
  (exists g, In g L /\ factive g = true) ->
  exists tm, ftmin L = Some tm /\ is_finite tm = true /\ (exists g, In g L /\ factive g = true /\ tm = fdist g) /\
    forall g, In g L -> factive g = true -> (B2R tm <= B2R (fdist g))%R.
Proof.
  intros L HF (g0 & I0 & A0). unfold ftmin. destruct (filter factive L) as [|g L'] eqn:E.
  - exfalso. assert (In g0 (filter factive L)) as X by (apply filter_In; auto). rewrite E in X. destruct X.
  - assert (F : forall x, In x L /\ factive x = true <-> In x (g :: L')) by (intros; rewrite <- E, filter_In; tauto).
    assert (FF : forall x, In x (g :: L') -> is_finite (fdist x) = true) by (intros x Hx; apply F in Hx; apply HF; tauto).
    destruct (ftmin_from_spec L' (fdist g)) as (H0 & H1 & H2 & H3); [apply FF; simpl; auto|intros; apply FF; simpl; auto|].
    eexists. split; [reflexivity|]. split; [exact H0|]. split.
    + destruct H1 as [->|(x & Hx & ->)].
      * exists g. assert (X : In g (g :: L')) by (simpl; auto). apply F in X. tauto.
      * exists x. assert (X : In x (g :: L')) by (simpl; auto). apply F in X. tauto.
    + intros x Hx Ax. assert (X : In x (g :: L')) by (apply F; auto). destruct X as [<-|X]; auto.
Qed.

(** ** Who crosses *)
Lemma Forall2_in_r : forall (A B : Type) (P : A -> B -> Prop) l L g, Forall2 P l L -> In g L -> exists d, In d l /\ P d g.
Proof.
  intros A B P l L g H. induction H; intros Hg; [destruct Hg|]. destruct Hg as [<-|Hg]; [exists x; simpl; auto|].
  destruct (IHForall2 Hg) as (d & Hd & HP). exists d. simpl; auto.
Qed.

Lemma Forall2_in_l : forall (A B : Type) (P : A -> B -> Prop) l L d, Forall2 P l L -> In d l -> exists g, In g L /\ P d g.
Proof.
  intros A B P l L d H. induction H; intros Hd; [destruct Hd|]. destruct Hd as [<-|Hd]; [exists y; simpl; auto|].
  destruct (IHForall2 Hd) as (g & Hg & HP). exists g. simpl; auto.
Qed.

Lemma Forall2_weaken : forall (A B : Type) (P Q : A -> B -> Prop) l L, Forall2 P l L ->
  (forall d g, In d l -> In g L -> P d g -> Q d g) -> Forall2 Q l L.
Proof. intros A B P Q l L H. induction H; intros W; constructor; [apply W; simpl; auto|apply IHForall2; intros; apply W; simpl; auto]. Qed.

Lemma eps_small : (0 < eps /\ 2 * eps < bpow radix2 (-20) /\ 1 / 1000000 + bpow radix2 (-72) <= gap - 2 * eps)%R.
Proof.
  unfold eps, gap. split; [apply bpow_gt_0|]. rewrite (p2n (-37)), (p2n (-20)), (p2n (-72)) by lia. split; [|].
  - change (2 ^ (- (-37))) with 137438953472. change (2 ^ (- (-20))) with 1048576. lra.
  - change (2 ^ (- (-37))) with 137438953472. change (2 ^ (- (-72))) with 4722366482869645213696. lra.
Qed.

Lemma crosses_exact : forall wq tq l ms tm, Forall2 (ok wq tq) l ms -> tmin l = Some tm -> (forall d, In d l -> aa d <= 707) ->
  exists dm, In dm l /\ active dm = true /\ (forall d, In d l -> active d = true -> (theta_R dm <= theta_R d)%R) /\
    forall d, In d l -> (crosses tm d = true <-> active d = true /\ theta_R d = theta_R dm).
Proof.
  intros wq tq l ms tm HI HT HB. destruct (tmin_spec l tm HT) as [(dm & Im & Am & Em) HM].
  assert (HD : forall d, In d l -> active d = true -> Q2R (dist d) = (theta_R d - Q2R (wq + tq))%R).
  { intros d Hd A. destruct (Forall2_in_l _ _ _ _ _ _ HI Hd) as (m & _ & O). pose proof (dist_ok _ _ _ _ O A) as E.
    rewrite (ok_mm _ _ _ _ O) in E. apply Qeq_eqR in E. rewrite E, Q2R_minus. rewrite <- (theta_Q2R d A). reflexivity. }
  assert (HMIN : forall d, In d l -> active d = true -> (theta_R dm <= theta_R d)%R).
  { intros d Hd A. specialize (HM d Hd A). rewrite Em in HM. apply Qle_Rle in HM. rewrite !HD in HM by assumption. lra. }
  exists dm. split; [exact Im|]. split; [exact Am|]. split; [exact HMIN|]. intros d Hd. rewrite (crosses_iff l tm d HT Hd).
  assert (E6 : Q2R (1 # 1000000) = (1 / 1000000)%R) by (unfold Q2R; cbn [Qnum Qden]; reflexivity).
  split; intros [A H]; (split; [exact A|]).
  - apply Qlt_Rlt in H. rewrite Q2R_minus, Em, !HD, E6 in H by assumption. specialize (HMIN d Hd A).
    destruct (Rle_lt_or_eq_dec _ _ HMIN) as [L|L]; [|congruence]. exfalso.
    pose proof (theta_gap_R d dm A Am (HB _ Hd) (HB _ Im) L) as G. unfold gap in G. lra.
  - apply Rlt_Qlt. rewrite Q2R_minus, Em, !HD, E6, H by assumption. lra.
Qed.

Lemma who_crosses : forall wq tq w tau l ms tm L, Forall2 (ok wq tq) l ms -> Forall2 (rel w tau) l L ->
  (forall d, In d l -> active d = true -> tame tau d) -> tmin l = Some tm ->
  exists dm ft, In dm l /\ active dm = true /\ (forall d, In d l -> active d = true -> (theta_R dm <= theta_R d)%R) /\
    (forall d, In d l -> (crosses tm d = true <-> active d = true /\ theta_R d = theta_R dm)) /\
    ftmin L = Some ft /\ is_finite ft = true /\ (Rabs (B2R ft - (theta_R dm - w - tau)) <= eps)%R /\
    Forall2 (fun d g => fcrosses ft g = crosses tm d) l L.
Proof.
  intros wq tq w tau l ms tm L HI HR HT Htm.
  assert (HB : forall d, In d l -> aa d <= 707).
  { intros d Hd. destruct (Forall2_in_l _ _ _ _ _ _ HR Hd) as (g & _ & R). apply (r_small _ _ _ _ R). }
  destruct (crosses_exact wq tq l ms tm HI Htm HB) as (dm & Im & Am & HMIN & HC).
  assert (ND : forall d g, In d l -> rel w tau d g -> active d = true ->
    is_finite (fdist g) = true /\ (Rabs (B2R (fdist g) - (theta_R d - w - tau)) <= eps)%R) by (intros; apply fdist_near; auto).
  destruct (ftmin_spec L) as (ft & EF & FF & (gm & Igm & Agm & Egm) & FM).
  - intros g Hg A. destruct (Forall2_in_r _ _ _ _ _ _ HR Hg) as (d & Hd & R). rewrite (factive_eq _ _ _ _ R) in A. apply (ND d g Hd R A).
  - destruct (Forall2_in_l _ _ _ _ _ _ HR Im) as (g & Hg & R). exists g. split; [exact Hg|]. rewrite (factive_eq _ _ _ _ R). exact Am.
  - exists dm, ft. repeat (split; [assumption|]).
    assert (NF : (Rabs (B2R ft - (theta_R dm - w - tau)) <= eps)%R).
    { destruct (Forall2_in_r _ _ _ _ _ _ HR Igm) as (d1 & Hd1 & R1). rewrite (factive_eq _ _ _ _ R1) in Agm.
      destruct (ND d1 gm Hd1 R1 Agm) as [_ N1]. rewrite <- Egm in N1. specialize (HMIN d1 Hd1 Agm).
      destruct (Forall2_in_l _ _ _ _ _ _ HR Im) as (g2 & Hg2 & R2). destruct (ND dm g2 Im R2 Am) as [_ N2].
      assert (A2 : factive g2 = true) by (rewrite (factive_eq _ _ _ _ R2); exact Am). specialize (FM g2 Hg2 A2).
      apply Rabs_le_inv in N1, N2. apply Rabs_le. lra. }
    split; [exact NF|].
    apply Forall2_weaken with (1 := HR). intros d g Hd Hg R. unfold fcrosses. rewrite (factive_eq _ _ _ _ R).
    destruct (active d) eqn:A; cbn [andb]; [|unfold crosses; rewrite A; reflexivity].
    destruct (ND d g Hd R A) as [Fg Ng]. pose proof (HMIN d Hd A) as HM.
    assert (FM' : (B2R ft <= B2R (fdist g))%R) by (apply FM; [exact Hg|rewrite (factive_eq _ _ _ _ R); exact A]).
    destruct eps_small as (E0 & E1 & E2). destruct tolerance_value as (FT & RT & T1 & T2).
    (* the distance can be arbitrarily large only when it is not a tie; bound it by the two errors *)
    assert (BIG : (Rabs (B2R (fdist g) - B2R ft) <= bpow radix2 200)%R).
    { apply Rabs_le_inv in Ng, NF. apply Rabs_le. 
      assert (0 <= theta_R dm)%R.
      { unfold theta_R. pose proof (aa_pos_R dm Am). apply Rmult_le_pos; [apply IZR_le; unfold mm; lia|]. apply Rlt_le, Rinv_0_lt_compat. rewrite mult_IZR. lra. }
      assert (theta_R d <= 2)%R.
      { unfold theta_R. pose proof (aa_pos_R d A). pose proof (r_count _ _ _ _ R) as HCt. apply IZR_le in HCt. rewrite plus_IZR, !mult_IZR.
        apply Rmult_le_reg_r with (2 * IZR (aa d))%R; [lra|]. unfold Rdiv. rewrite Rmult_assoc, Rinv_l by lra. lra. }
      assert (eps <= 1)%R by (unfold eps; change 1%R with (bpow radix2 0); apply bpow_le; lia).
      assert (4 <= bpow radix2 200)%R by (replace 4%R with (bpow radix2 2) by (rewrite p2 by lia; reflexivity); apply bpow_le; lia).
      lra. }
    destruct (near_minus (fdist g) ft Fg FF BIG) as [Fm Rm].
    assert (FA : is_finite (dabs (dminus (fdist g) ft)) = true) by (unfold dabs; rewrite is_finite_Babs; exact Fm).
    rewrite dlt_R by assumption. unfold dabs at 1. rewrite B2R_Babs, Rm.
    assert (P0 : (0 <= rnd (B2R (fdist g) - B2R ft))%R).
    { rewrite <- (round_0 radix2 (FLT_exp (-1074) 53) ZnearestE). apply rnd_le. lra. }
    rewrite (Rabs_pos_eq _ P0). specialize (HC d Hd).
    destruct (Rle_lt_or_eq_dec _ _ HM) as [LT|EQ].
    + assert (CF : crosses tm d = false) by (destruct (crosses tm d); [exfalso; destruct HC as [HC _]; specialize (HC eq_refl); lra|reflexivity]).
      rewrite CF. apply Rlt_bool_false. rewrite <- RT. apply rnd_le.
      pose proof (theta_gap_R d dm A Am (HB _ Hd) (HB _ Im) LT) as G. apply Rabs_le_inv in Ng, NF. lra.
    + assert (CT : crosses tm d = true) by (apply HC; split; auto).
      rewrite CT. apply Rlt_bool_true. apply Rle_lt_trans with (rnd (2 * eps)).
      * apply rnd_le. apply Rabs_le_inv in Ng, NF. lra.
      * rewrite round_generic; [lra|apply valid_rnd_N|]. unfold eps. replace (2 * bpow radix2 (-37))%R with (bpow radix2 (-36)).
        -- apply generic_format_bpow. unfold FLT_exp. lia.
        -- change (-36) with (1 + -37). rewrite bpow_plus. reflexivity.
Qed.

(** ** One turn *)
Definition same (d : dimn) (g : fdimn) : Prop := g_to g = d_to d /\ g_c g = d_c d /\ g_isign g = sign d.

Lemma findex_same : forall l L, Forall2 same l L -> findex L = cindex l.
Proof. intros l L H. induction H as [|d g l L (_ & H & _) _ IH]; [reflexivity|]. cbn [findex cindex map]. f_equal; assumption. Qed.

Lemma freached_same : forall l L, Forall2 same l L -> freached L = reached l.
Proof. intros l L H. induction H as [|d g l L (H1 & H2 & _) _ IH]; [reflexivity|]. cbn [freached reached forallb]. rewrite H1, H2. f_equal. exact IH. Qed.

Lemma rel_same : forall w tau d g, rel w tau d g -> same d g.
Proof. intros w tau d g H. split; [apply (r_to _ _ _ _ H)|]. split; [apply (r_c _ _ _ _ H)|apply (r_isign _ _ _ _ H)]. Qed.

Lemma cross_same : forall d g, same d g -> same (cross d) (fcross g).
Proof. intros d g (H1 & H2 & H3). unfold same, sign in *. cbn [cross fcross g_to g_c g_isign d_to d_c d_from]. fold (sign d) in *. rewrite H2, H3. auto. Qed.

Lemma Forall2_app_one : forall (A B : Type) (P : A -> B -> Prop) l L d g, Forall2 P l L -> P d g -> Forall2 P (l ++ [d]) (L ++ [g]).
Proof. intros. apply Forall2_app; [assumption|]. constructor; [assumption|constructor]. Qed.

Lemma fcross_each_eq : forall tm ft todo todo', Forall2 (fun d g => same d g /\ fcrosses ft g = crosses tm d) todo todo' ->
  forall done done', Forall2 same done done' -> fcross_each ft done' todo' = cross_each tm done todo.
Proof.
  intros tm ft todo todo' H. induction H as [|d g l L [HS HC] HL IH]; intros done done' HD; [reflexivity|].
  cbn [fcross_each cross_each]. rewrite HC.
  assert (HL' : Forall2 same l L) by (clear -HL; induction HL; constructor; tauto).
  destruct (crosses tm d).
  - f_equal.
    + apply findex_same. apply Forall2_app; [exact HD|]. constructor; [apply cross_same; exact HS|exact HL'].
    + apply IH. apply Forall2_app_one; [exact HD|apply cross_same; exact HS].
  - apply IH. apply Forall2_app_one; assumption.
Qed.

Lemma next_rel : forall wq tq tm w tau ft d g m, ok wq tq d m -> rel w tau d g -> fcrosses ft g = crosses tm d ->
  (crosses tm d = true -> m < aa d) -> is_finite ft = true -> (active d = true -> tame (B2R ft) d) ->
  rel w (B2R ft) (move tm (if crosses tm d then cross d else d)) (fmove ft (if fcrosses ft g then fcross g else g)).
Proof.
  intros wq tq tm w tau ft d g m O R HC HM FF HT. rewrite HC.
  assert (O' : ok wq tm (move tm (if crosses tm d then cross d else d)) (if crosses tm d then m + 1 else m)).
  { destruct (crosses tm d) eqn:E.
    - apply cross_ok with tq; auto. unfold crosses in E. apply andb_true_iff in E. tauto.
    - apply move_ok with tq. exact O. }
  pose proof (ok_mm _ _ _ _ O') as EM'. pose proof (ok_mm _ _ _ _ O) as EM. pose proof (o_m _ _ _ _ O') as OM'.
  set (d' := move tm (if crosses tm d then cross d else d)) in *.
  set (g' := fmove ft (if crosses tm d then fcross g else g)).
  assert (Ef : d_from d' = d_from d) by (unfold d'; destruct (crosses tm d); reflexivity).
  assert (Et : d_to d' = d_to d) by (unfold d'; destruct (crosses tm d); reflexivity).
  assert (Ev : vv d' = vv d) by (unfold vv; rewrite Ef, Et; reflexivity).
  assert (Es : sign d' = sign d) by (unfold sign; rewrite Ef, Et; reflexivity).
  assert (Ea : active d' = active d) by (unfold active; rewrite Ef, Et; reflexivity).
  assert (Eaa : aa d' = aa d) by (unfold aa; rewrite Ev; reflexivity).
  destruct (r_small _ _ _ _ R) as [B1 B2].
  split; rewrite ?Ef, ?Et, ?Ev, ?Es, ?Ea, ?Eaa.
  - unfold g'. destruct (crosses tm d); apply (r_from _ _ _ _ R).
  - unfold g'. destruct (crosses tm d); apply (r_to _ _ _ _ R).
  - unfold g', d'. destruct (crosses tm d); cbn [fmove fcross move cross g_c d_c g_isign]; rewrite (r_c _ _ _ _ R); [rewrite (r_isign _ _ _ _ R)|]; reflexivity.
  - unfold g'. destruct (crosses tm d); apply (r_v _ _ _ _ R).
  - unfold g'. destruct (crosses tm d); apply (r_isign _ _ _ _ R).
  - auto.
  - rewrite <- EM'. rewrite Eaa in OM'. lia.
  - apply (r_w _ _ _ _ R).
  - unfold g'. destruct (crosses tm d); apply (r_sign _ _ _ _ R).
  - intros A. rewrite <- EM'. unfold g'. destruct (r_next _ _ _ _ R A) as [Fn Rn]. destruct (r_sign _ _ _ _ R A) as [Fs Rs]. rewrite <- EM in Rn.
    destruct (crosses tm d) eqn:E; cbn [fmove fcross g_next]; [|auto]. specialize (HM eq_refl).
    assert (EX : (B2R (g_next g) + B2R (g_sign g) = IZR (sign d * (2 * (m + 1) + 1)) / 2)%R).
    { rewrite Rn, Rs, !mult_IZR, !plus_IZR, !mult_IZR, !plus_IZR. lra. }
    assert (SG : Z.abs (sign d * (2 * (m + 1) + 1)) <= 2000).
    { rewrite Z.abs_mul. pose proof (o_m _ _ _ _ O). assert (Z.abs (sign d) <= 1) by (unfold sign; destruct (d_to d - d_from d); cbn; lia). nia. }
    destruct (near_plus (g_next g) (g_sign g) Fn Fs) as [Fp Rp].
    + rewrite EX. unfold Rdiv. rewrite Rabs_mult, (Rabs_pos_eq (/ 2)) by lra. rewrite <- abs_IZR. apply IZR_le in SG.
      apply Rle_trans with 1024%R; [lra|]. replace 1024%R with (bpow radix2 10) by (rewrite p2 by lia; reflexivity). apply bpow_le. lia.
    + split; [exact Fp|]. rewrite Rp, EX, rnd_half by lia. rewrite mult_IZR. lra.
  - intros A. specialize (HT A). unfold tame in HT.
    assert (EX : g_x g' = dplus (dz (d_from d)) (dtimes (dz (vv d)) ft)).
    { unfold g'. destruct (crosses tm d); cbn [fmove fcross g_x g_from g_v]; rewrite (r_from _ _ _ _ R), (r_v _ _ _ _ R); reflexivity. }
    rewrite EX. destruct (dz_value (vv d)) as [Fv Rv]; [unfold aa in B1; lia|]. destruct (dz_value (d_from d)) as [Fa Ra]; [lia|].
    set (v := IZR (vv d)) in *. set (a := IZR (d_from d)) in *. set (t := B2R ft) in *.
    assert (Bv : (Rabs (v * t) <= bpow radix2 13)%R) by (rewrite (p2 13) by lia; change (2 ^ 13) with 8192; lra).
    destruct (near_times (dz (vv d)) ft Fv FF) as [Fp Rp].
    { rewrite Rv. fold t v. eapply Rle_trans; [exact Bv|]. apply bpow_le. lia. }
    rewrite Rv in Rp. fold t v in Rp.
    pose proof (rnd_err _ 13 ltac:(lia) Bv) as E1. change (13 - 53) with (-40) in E1.
    pose proof (rnd_bpow _ 13 ltac:(lia) Bv) as Bp. rewrite <- Rp in E1, Bp.
    set (p := B2R (dtimes (dz (vv d)) ft)) in *.
    assert (Ba : (Rabs a <= 4096)%R) by (unfold a; rewrite <- abs_IZR; apply IZR_le; exact B2).
    assert (Bs : (Rabs (a + p) <= bpow radix2 14)%R).
    { eapply Rle_trans; [apply Rabs_triang|]. rewrite (p2 13) in Bp by lia. rewrite (p2 14) by lia. change (2 ^ 13) with 8192 in Bp. change (2 ^ 14) with 16384. lra. }
    destruct (near_plus (dz (d_from d)) (dtimes (dz (vv d)) ft) Fa Fp) as [Fx Rx].
    { rewrite Ra. fold p a. eapply Rle_trans; [exact Bs|]. apply bpow_le. lia. }
    rewrite Ra in Rx. fold p a in Rx. split; [exact Fx|]. rewrite Rx.
    pose proof (rnd_err _ 14 ltac:(lia) Bs) as E2. change (14 - 53) with (-39) in E2.
    replace (rnd (a + p) - (a + v * t))%R with ((rnd (a + p) - (a + p)) + (p - v * t))%R by ring.
    eapply Rle_trans; [apply Rabs_triang|].
    replace (bpow radix2 (-38)) with (2 * bpow radix2 (-39))%R by (change (-38) with (1 + -39); rewrite bpow_plus; reflexivity).
    assert (bpow radix2 (-40) <= bpow radix2 (-39))%R by (apply bpow_le; lia). lra.
Qed.

(** ** The loop *)
Record inv (w tau : R) (l : list dimn) (left : Z) : Prop := {
  i_tame : forall d, In d l -> active d = true -> tame tau d;
  i_tau : exists y b k T, (0 <= y <= T)%R /\ (b = 0 \/ b = 1)%R /\ 0 <= k /\ k + left <= 2121 /\
            (Rabs (tau - (y - b * w)) <= IZR k * eps)%R /\
            forall d, In d l -> active d = true -> (T <= theta_R d)%R
}.

Lemma loop_eq : forall fl fuel wq tq w tau l ms L, Forall2 (ok wq tq) l ms -> Forall2 (rel w tau) l L ->
  0 < remaining l ms -> inv w tau l (remaining l ms) -> fline_loop fl fuel L = line_loop fl fuel l.
Proof.
  intros fl. induction fuel as [|fuel IH]; intros wq tq w tau l ms L HI HR HP [HT HY]; [reflexivity|].
  cbn [fline_loop line_loop].
  assert (HB : forall d, In d l -> aa d <= 707).
  { intros d Hd. destruct (Forall2_in_l _ _ _ _ _ _ HR Hd) as (g & _ & R). apply (r_small _ _ _ _ R). }
  destruct (remaining_ex _ _ _ _ HI HP) as (dj & mj & Hj & Hlt).
  assert (HIn : forall d m, In (d, m) (combine l ms) -> ok wq tq d m /\ In d l).
  { clear -HI. induction HI; intros d m Hd; [destruct Hd|]. destruct Hd as [E|Hd].
    - injection E as <- <-. split; simpl; auto.
    - destruct (IHHI _ _ Hd). split; simpl; auto. }
  destruct (HIn _ _ Hj) as [Oj Ij].
  assert (Aj : active dj = true) by (apply active_iff; pose proof (o_m _ _ _ _ Oj); unfold aa in *; lia).
  destruct (tmin_some l dj Ij Aj) as (tm & HTm).
  destruct (who_crosses wq tq w tau l ms tm L HI HR HT HTm) as (dm & ft & Im & Am & HMIN & HC & EF & FF & NF & FC).
  rewrite HTm, EF. fold (next_l tm l).
  destruct (no_overshoot wq tq l ms tm HI HTm) as (HN & (dc & mc & Hdc & Hcr)).
  { intros d Hd. specialize (HB d Hd). lia. }
  { exists dj, mj. auto. }
  pose proof (next_ok wq tq tm l ms HI HN) as HI'.
  assert (HL : length l = length ms) by (clear -HI; induction HI; simpl; auto).
  pose proof (remaining_next tm l ms HL) as HRem. pose proof (crossed_pos tm l dc (proj2 (HIn _ _ Hdc)) Hcr) as HPos.
  pose proof (remaining_nonneg _ _ _ _ HI') as HNN.
  destruct HY as (y & b & k & T & Hy & Hb & Hk & Hkl & Htau & HTh).
  assert (T1 : (T <= theta_R dm)%R) by (apply HTh; assumption).
  assert (T2 : (theta_R dm <= 1)%R).
  { eapply Rle_trans; [apply (HMIN dj Ij Aj)|]. unfold theta_R. pose proof (aa_pos_R dj Aj). rewrite <- (ok_mm _ _ _ _ Oj).
    apply Rmult_le_reg_r with (IZR (2 * aa dj)); [rewrite mult_IZR; lra|]. unfold Rdiv. rewrite Rmult_assoc, Rinv_l by (rewrite mult_IZR; lra).
    rewrite Rmult_1_r, Rmult_1_l. apply IZR_le. lia. }
  destruct eps_small as (E0 & _ & _).
  assert (Htau' : (Rabs (B2R ft - ((theta_R dm - y) - (1 - b) * w)) <= IZR (k + 1) * eps)%R).
  { replace (B2R ft - ((theta_R dm - y) - (1 - b) * w))%R with ((B2R ft - (theta_R dm - w - tau)) + - (tau - (y - b * w)))%R by ring.
    eapply Rle_trans; [apply Rabs_triang|]. rewrite Rabs_Ropp, plus_IZR. lra. }
  assert (HT' : forall d, In d l -> active d = true -> tame (B2R ft) d).
  { intros d Hd A. destruct (Forall2_in_l _ _ _ _ _ _ HR Hd) as (g & _ & R). destruct (r_small _ _ _ _ R) as [B1 B2].
    pose proof (r_w _ _ _ _ R A) as Hw. unfold tame.
    replace (IZR (vv d) * B2R ft)%R with (IZR (vv d) * (B2R ft - ((theta_R dm - y) - (1 - b) * w)) + (IZR (vv d) * (theta_R dm - y) + - ((1 - b) * IZR (d_from d))))%R by (rewrite Hw; ring).
    eapply Rle_trans; [apply Rabs_triang|]. pose proof (Rabs_triang (IZR (vv d) * (theta_R dm - y)) (- ((1 - b) * IZR (d_from d)))) as TR.
    rewrite Rabs_Ropp, !Rabs_mult in TR. rewrite !Rabs_mult.
    assert (V : (0 <= Rabs (IZR (vv d)) <= 707)%R) by (split; [apply Rabs_pos|rewrite <- abs_IZR; apply IZR_le; exact B1]).
    assert (Fm : (0 <= Rabs (IZR (d_from d)) <= 4096)%R) by (split; [apply Rabs_pos|rewrite <- abs_IZR; apply IZR_le; exact B2]).
    assert (Bb : (0 <= Rabs (1 - b) <= 1)%R) by (split; [apply Rabs_pos|apply Rabs_le; lra]).
    assert (By : (0 <= Rabs (theta_R dm - y) <= 1)%R) by (split; [apply Rabs_pos|apply Rabs_le; lra]).
    assert (Bk : (0 <= Rabs (B2R ft - ((theta_R dm - y) - (1 - b) * w)) <= 1)%R).
    { split; [apply Rabs_pos|]. eapply Rle_trans; [exact Htau'|]. assert (IZR (k + 1) <= 2122)%R by (apply IZR_le; lia).
      assert (eps <= / 4096)%R by (unfold eps; rewrite (p2n (-37)) by lia; change (2 ^ (- (-37))) with 137438953472; lra). nra. }
    clear Htau'. nra. }
  assert (HR' : Forall2 (rel w (B2R ft)) (next_l tm l) (map (fmove ft) (fcross_all ft L))).
  { assert (FE : forall d g, In (d, g) (combine l L) -> fcrosses ft g = crosses tm d).
    { clear -FC. induction FC; intros d g Hd; [destruct Hd|]. destruct Hd as [E|Hd]; [injection E as <- <-; assumption|auto]. }
    clear -HI HR HN FF HT' FC FE. revert L HR FC FE. induction HI as [|d m l ms O HI IHI]; intros L HR FC FE.
    - inversion HR; subst. constructor.
    - inversion HR as [|d0 g l0 L0 R HR0]; subst. inversion FC as [|d1 g1 l1 L1 C FC1]; subst.
      rewrite next_l_cons. unfold fcross_all. rewrite !map_cons. constructor.
      + apply next_rel with wq tq tau m; auto.
        * intros X. apply HN; simpl; auto.
        * intros A. apply HT'; simpl; auto.
      + apply IHI; auto.
        * intros; apply HN; simpl; auto.
        * intros; apply HT'; simpl; auto.
        * intros; apply FE; simpl; auto. }
  assert (HS' : Forall2 same (next_l tm l) (map (fmove ft) (fcross_all ft L))).
  { apply Forall2_weaken with (1 := HR'). intros d g _ _ R. apply (rel_same _ _ _ _ R). }
  rewrite (freached_same _ _ HS'), (findex_same _ _ HS').
  assert (HRows : fcross_each ft [] L = cross_each tm [] l).
  { apply fcross_each_eq; [|constructor]. clear -HR FC. induction HR as [|d g l L R HR IH]; [constructor|]. inversion FC; subst.
    constructor; [split; [apply (rel_same _ _ _ _ R)|assumption]|auto]. }
  rewrite HRows. destruct (reached (next_l tm l)) eqn:ER; [reflexivity|].
  assert (HNZ : remaining (next_l tm l) (next_ms tm l ms) <> 0).
  { intros E. rewrite <- (reached_iff _ _ _ _ HI') in E. congruence. }
  rewrite (IH wq tm w (B2R ft) (next_l tm l) (next_ms tm l ms) _ HI' HR'); [reflexivity|lia|].
  assert (NX : forall d, In d (next_l tm l) -> exists x, In x l /\ d = move tm (if crosses tm x then cross x else x)).
  { intros d Hd. unfold next_l, cross_all in Hd. rewrite map_map in Hd. apply in_map_iff in Hd. destruct Hd as (x & <- & Hx). eauto. }
  split.
  - intros d Hd A. destruct (NX d Hd) as (x & Hx & ->). rewrite active_next in A. specialize (HT' x Hx A). destruct (crosses tm x); exact HT'.
  - exists (theta_R dm - y)%R, (1 - b)%R, (k + 1), (theta_R dm). split; [lra|]. split; [lra|]. split; [lia|]. split; [lia|]. split; [exact Htau'|].
    intros d Hd A. destruct (NX d Hd) as (x & Hx & ->). rewrite active_next in A. eapply Rle_trans; [apply (HMIN x Hx A)|].
    destruct (Forall2_in_l _ _ _ _ _ _ HI Hx) as (m & Hm & O). pose proof (ok_mm _ _ _ _ O) as Emm.
    assert (G : mm x <= mm (move tm (if crosses tm x then cross x else x))).
    { destruct (crosses tm x) eqn:E; [|unfold mm; cbn [move d_c d_from]; lia]. rewrite <- Emm. pose proof (o_c _ _ _ _ O) as Ec. pose proof (o_m _ _ _ _ O).
      unfold mm. cbn [move cross d_c d_from]. rewrite Ec. destruct (sgn_cases x A) as [[_ S]|[_ S]]; rewrite S; lia. }
    unfold theta_R. rewrite aa_next. pose proof (aa_pos_R x A). apply Rmult_le_compat_r; [apply Rlt_le, Rinv_0_lt_compat; rewrite mult_IZR; lra|].
    apply IZR_le. lia.
Qed.

(** ** Start *)
Definition fmk (p q : Z) : fdimn :=
  let v := dz (q - p) in let s := if deq v dzero then dzero else ddiv v (dabs v) in
  mkfdimn p q p v s (dint s) (dtimes s half) (dz p).
Fixpoint fmks (x0 x1 : list Z) : list fdimn :=
  match x0, x1 with p :: x0', q :: x1' => fmk p q :: fmks x0' x1' | _, _ => [] end.

Lemma fline_init_eq : forall x1 x0 i, fline_init x0 x1 i =
  (l <- line_init x0 x1 i ;; Ok (map (fun d => fmk (d_from d) (d_to d)) l)).
Proof.
  intros x1 x0. induction x0 as [|p x0 IH]; intros i; [reflexivity|].
  cbn [line_init fline_init]. unfold line_axis, fline_axis. destruct (tget x1 i) as [q| | |]; cbn [bind]; try reflexivity.
  destruct (i32 (q - p)) as [z| | |] eqn:E; cbn [bind]; try reflexivity.
  assert (z = q - p) as -> by (unfold i32 in E; destruct (_ && _) in E; congruence).
  rewrite IH. destruct (line_init x0 x1 (i + 1)) as [l| | |]; reflexivity.
Qed.

Lemma deq_dz : forall z, Z.abs z <= 2 ^ 53 -> deq (dz z) dzero = (z =? 0).
Proof.
  intros z B. unfold deq. destruct (dz_value z B) as [F R]. rewrite Beqb_correct by (auto; reflexivity). rewrite R. cbn [B2R dzero].
  destruct (Req_bool_spec (IZR z) 0) as [E|E]; destruct (Z.eqb_spec z 0) as [E'|E']; auto.
  - exfalso. apply E'. apply eq_IZR. exact E.
  - exfalso. apply E. rewrite E'. reflexivity.
Qed.

Lemma sign_value : forall z, z <> 0 -> Z.abs z <= 2 ^ 53 -> ddiv (dz z) (dabs (dz z)) = dz (Z.sgn z).
Proof.
  intros z N B. destruct (dz_value z B) as [F R].
  assert (N' : IZR z <> 0%R) by (intros E; apply N; apply eq_IZR; exact E).
  assert (S : (IZR z / Rabs (IZR z) = IZR (Z.sgn z))%R).
  { destruct (Z.lt_trichotomy z 0) as [L|[E|L]]; [|contradiction|].
    - rewrite (Z.sgn_neg _ L). apply IZR_lt in L. rewrite Rabs_left by exact L. replace (IZR (-1)) with (- (1))%R by (simpl; lra). field. exact N'.
    - rewrite (Z.sgn_pos _ L). apply IZR_lt in L. rewrite Rabs_pos_eq by lra. field. exact N'. }
  assert (AS : Z.abs (Z.sgn z) = 1) by (destruct z; [contradiction|reflexivity|reflexivity]).
  destruct (dz_value (Z.sgn z)) as [F1 R1]; [rewrite AS; lia|].
  destruct (near_div (dz z) (dabs (dz z)) F) as [F2 R2].
  - unfold dabs. rewrite B2R_Babs, R. apply Rabs_no_R0. exact N'.
  - unfold dabs. rewrite B2R_Babs, R, S, <- abs_IZR, AS. change 1%R with (bpow radix2 0). apply bpow_le. lia.
  - unfold dabs in *. rewrite B2R_Babs, R, S in R2.
    replace (IZR (Z.sgn z)) with (IZR (2 * Z.sgn z) / 2)%R in R2 by (rewrite mult_IZR; lra). rewrite rnd_half in R2 by lia.
    assert (R2' : B2R (ddiv (dz z) (Babs (dz z))) = IZR (Z.sgn z)) by (rewrite R2, mult_IZR; lra).
    assert (NZ : IZR (Z.sgn z) <> 0%R) by (intros E; apply eq_IZR in E; rewrite E in AS; discriminate).
    assert (strict : forall x : double, is_finite x = true -> B2R x = IZR (Z.sgn z) -> is_finite_strict x = true).
    { intros x Fx Rx. destruct x; try discriminate; [|reflexivity]. exfalso. apply NZ. rewrite <- Rx. reflexivity. }
    apply B2R_inj; [apply strict; assumption|apply strict; assumption|]. rewrite R2', R1. reflexivity.
Qed.

Lemma dint_sign : forall z, dint (dz (Z.sgn z)) = Z.sgn z.
Proof. intros [|p|p]; cbn [Z.sgn]; vm_compute; reflexivity. Qed.

Lemma start_rel : forall w p q, Z.abs (q - p) <= 707 -> Z.abs p <= 4096 -> (p <> q -> IZR p = (w * IZR (q - p))%R) ->
  rel w 0 (mk p q) (fmk p q).
Proof.
  intros w p q B1 B2 Hw. assert (B : Z.abs (q - p) <= 2 ^ 53) by lia.
  assert (ES : g_isign (fmk p q) = sign (mk p q) /\ (q - p <> 0 -> g_sign (fmk p q) = dz (Z.sgn (q - p)) /\ g_next (fmk p q) = dtimes (dz (Z.sgn (q - p))) half)).
  { unfold fmk, sign. cbn [g_isign g_sign g_next mk d_from d_to]. rewrite deq_dz by exact B. destruct (Z.eqb_spec (q - p) 0) as [E|E].
    - rewrite E. split; [reflexivity|]. intros X. contradiction.
    - rewrite sign_value by assumption. split; [apply dint_sign|auto]. }
  destruct ES as [ES1 ES2].
  assert (AC : active (mk p q) = true -> q - p <> 0) by (intros A; apply active_iff in A; exact A).
  assert (S1 : Z.abs (Z.sgn (q - p)) <= 1) by (destruct (q - p); cbn; lia).
  assert (M0 : mm (mk p q) = 0) by (unfold mm; cbn [mk d_c d_from]; lia).
  destruct (dz_value (Z.sgn (q - p))) as [F1 R1]; [lia|].
  split; try reflexivity.
  - exact ES1.
  - unfold aa, vv. cbn [mk d_from d_to]. auto.
  - rewrite M0. unfold aa. lia.
  - intros A. unfold vv. cbn [mk d_from d_to]. apply Hw. apply AC in A. lia.
  - intros A. destruct (ES2 (AC A)) as [-> _]. auto.
  - intros A. destruct (ES2 (AC A)) as [_ ->]. destruct half_value as [FH RH]. destruct (near_times (dz (Z.sgn (q - p))) half F1 FH) as [F R].
    + rewrite R1, RH, Rabs_mult, <- abs_IZR, (Rabs_pos_eq (/ 2)) by lra. apply IZR_le in S1. apply Rle_trans with 1%R; [lra|].
      change 1%R with (bpow radix2 0). apply bpow_le. lia.
    + split; [exact F|]. rewrite R, R1, RH, M0. change (IZR (Z.sgn (q - p)) * / 2)%R with (IZR (Z.sgn (q - p)) / 2)%R. rewrite rnd_half by lia.
      unfold sign. cbn [mk d_from d_to Z.mul Z.add]. lra.
  - intros A. cbn [fmk g_x mk d_from]. destruct (dz_value p) as [F R]; [lia|]. split; [exact F|]. rewrite R.
    replace (IZR p - (IZR p + IZR (vv (mk p q)) * 0))%R with 0%R by ring. rewrite Rabs_R0. apply bpow_ge_0.
Qed.

Lemma start_rels : forall wq x0 x1, span x0 x1 <= 707 -> Forall (fun c => Z.abs c <= 4096) x0 ->
  Forall2 (fun a b => a <> b -> (inject_Z a == wq * inject_Z (b - a))%Q) x0 x1 ->
  Forall2 (rel (Q2R wq) 0) (mks x0 x1) (map (fun d => fmk (d_from d) (d_to d)) (mks x0 x1)).
Proof.
  intros wq x0 x1 HS HF H. induction H as [|p q x0 x1 H HR IH]; [constructor|]. cbn [mks map]. cbn [span] in HS. inversion HF; subst.
  constructor; [|apply IH; [lia|assumption]]. cbn [mk d_from d_to]. apply start_rel; [lia|assumption|]. intros N. specialize (H N).
  apply Qeq_eqR in H. rewrite Q2R_mult in H. unfold Q2R at 1 3 in H. unfold inject_Z in H. cbn [Qnum Qden] in H. rewrite Rinv_1, !Rmult_1_r in H. exact H.
Qed.

Lemma loop_undefined : forall fl fuel l, (forall d, In d l -> active d = false /\ aa d <= 707) ->
  fline_loop fl fuel (map (fun d => fmk (d_from d) (d_to d)) l) = line_loop fl fuel l.
Proof.
  intros fl [|fuel] l H; [reflexivity|]. cbn [fline_loop line_loop].
  assert (E1 : tmin l = None).
  { unfold tmin. replace (filter active l) with (@nil dimn); [reflexivity|]. symmetry. induction l as [|d l IH]; [reflexivity|]. cbn [filter].
    rewrite (proj1 (H d (or_introl eq_refl))). apply IH. intros; apply H; simpl; auto. }
  assert (E2 : ftmin (map (fun d => fmk (d_from d) (d_to d)) l) = None).
  { unfold ftmin. replace (filter factive (map (fun d => fmk (d_from d) (d_to d)) l)) with (@nil fdimn); [reflexivity|]. symmetry. clear E1.
    induction l as [|d l IH]; [reflexivity|]. cbn [map filter]. destruct (H d (or_introl eq_refl)) as [A B]. unfold aa, vv in B.
    replace (factive (fmk (d_from d) (d_to d))) with false; [apply IH; intros; apply H; simpl; auto|].
    unfold factive, fmk. cbn [g_v]. rewrite deq_dz by lia. symmetry. exact A. }
  rewrite E1, E2. reflexivity.
Qed.

Lemma manhattan_span : forall x0 x1, length x1 = length x0 -> manhattan x0 x1 <= lenZ x0 * span x0 x1.
Proof.
  induction x0 as [|p x0 IH]; intros [|q x1] HL; simpl in HL; try discriminate. cbn [manhattan span]. rewrite lenZ_cons.
  specialize (IH x1 ltac:(lia)). pose proof (lenZ_nonneg _ x0). nia.
Qed.

Theorem fpath_eq : forall fuel x0 x1 mode, (1 <= length x0 <= 3)%nat -> length x1 = length x0 -> span x0 x1 <= 707 ->
  through_origin x0 x1 -> Forall (fun c => Z.abs c <= 4096) x0 -> fpath fuel x0 x1 mode = path fuel x0 x1 mode.
Proof.
  assert (G : forall fl fuel x0 x1, (1 <= length x0 <= 3)%nat -> length x1 = length x0 -> span x0 x1 <= 707 ->
    through_origin x0 x1 -> Forall (fun c => Z.abs c <= 4096) x0 -> fline fl fuel x0 x1 = line fl fuel x0 x1).
  { intros fl fuel x0 x1 HL HL' HS (wq & HW) HF. destruct (line_start x0 x1 HL HL' ltac:(lia)) as [E1 E2].
    unfold fline, line. rewrite E1, fline_init_eq, E2, !bind_Ok.
    destruct (mks_facts wq x0 x1 HL' HW) as (F1 & F2 & F3 & F4 & F5).
    pose proof (start_rels wq x0 x1 HS HF HW) as HR.
    assert (HSame : Forall2 same (mks x0 x1) (map (fun d => fmk (d_from d) (d_to d)) (mks x0 x1))).
    { apply Forall2_weaken with (1 := HR). intros d g _ _ R. apply (rel_same _ _ _ _ R). }
    rewrite (findex_same _ _ HSame). f_equal.
    assert (HB : forall d, In d (mks x0 x1) -> aa d <= 707) by (intros d Hd; apply mks_aa in Hd; lia).
    destruct (list_eq_dec Z.eq_dec x0 x1) as [E|NE].
    - apply loop_undefined. intros d Hd. split; [|apply HB; exact Hd]. subst x1. clear -Hd. induction x0 as [|p x0 IH]; [destruct Hd|].
      cbn [mks] in Hd. destruct Hd as [<-|Hd]; [|auto]. unfold active. cbn [mk d_from d_to]. rewrite Z.sub_diag. reflexivity.
    - pose proof (manhattan_pos x0 x1 HL' NE) as HM. pose proof (manhattan_span x0 x1 HL') as HMS.
      apply loop_eq with wq 0%Q (Q2R wq) 0%R (repeat 0 (length x0)); [exact F1|exact HR|rewrite F5; exact HM|].
      rewrite F5. split.
      + intros d _ _. unfold tame. rewrite Rmult_0_r, Rabs_R0. lra.
      + exists 0%R, 0%R, 0, 0%R. split; [lra|]. split; [auto|]. split; [lia|]. split; [unfold lenZ in *; nia|]. split.
        * replace (0 - (0 - 0 * Q2R wq))%R with 0%R by ring. rewrite Rabs_R0. lra.
        * intros d _ A. unfold theta_R. pose proof (aa_pos_R d A). apply Rmult_le_pos; [apply IZR_le; unfold mm; lia|].
          apply Rlt_le, Rinv_0_lt_compat. rewrite mult_IZR. lra. }
  intros fuel x0 x1 [| |] HL HL' HS HO HF; cbn [fpath path]; [reflexivity| |]; apply G; assumption.
Qed.
