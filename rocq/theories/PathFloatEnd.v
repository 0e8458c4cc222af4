(** * PathFloatEnd: in [double]s the same paths end, with the same pixels, as in exact arithmetic (proofs only). *)

From Coq Require Import ZArith QArith Qabs Qreals Reals List Bool Lia Lra Psatz.
From Flocq Require Import Core BinarySingleNaN Relative.
From Verif Require Import Base BaseLemmas Path SpecPath SpecPathEnd PathProofs LineProofs LineGeom Double SpecDouble DoubleProofs EnsembleFloatMean PathFloat PathFloatProofs PathEnd.
Import ListNotations.
Open Scope Z_scope.

Local Notation rnd := (round radix2 (FLT_exp (-1074) 53) ZnearestE).
Local Notation uu := (bpow radix2 (-53)).

(** ** Rounding *)
Lemma rnd_rel : forall r B, (Rabs r <= B)%R -> (Rabs (rnd r - r) <= (B + 1) * uu)%R.
Proof.
  intros r B H. destruct (error_N_FLT radix2 (-1074) 53 ltac:(lia) (fun n => negb (Z.even n)) r) as (e & h & He & Hh & _ & E).
  rewrite E. replace (r * (1 + e) + h - r)%R with (r * e + h)%R by ring.
  eapply Rle_trans; [apply Rabs_triang|]. rewrite Rabs_mult.
  assert (U : (/ 2 * bpow radix2 (- (53) + 1) = uu)%R).
  { change (- (53) + 1) with (-53 + 1). rewrite bpow_plus. change (bpow radix2 1) with 2%R. lra. }
  rewrite U in He. assert (V : (/ 2 * bpow radix2 (-1074) <= uu)%R).
  { assert (bpow radix2 (-1074) <= uu)%R by (apply bpow_le; lia). pose proof (bpow_gt_0 radix2 (-1074)). lra. }
  pose proof (Rabs_pos r). pose proof (Rabs_pos e). pose proof (bpow_gt_0 radix2 (-53)). nra.
Qed.

Lemma uu_small : (0 < uu /\ 65536 * uu = eps /\ uu <= 1 / 1000000000000)%R.
Proof.
  unfold eps. split; [apply bpow_gt_0|]. split.
  - change (-37) with (16 + -53). rewrite bpow_plus, (p2 16) by lia. reflexivity.
  - rewrite (p2n (-53)) by lia. change (2 ^ (- -53)) with 9007199254740992. lra.
Qed.

Lemma b200 : (1000000000000 <= bpow radix2 200)%R.
Proof.
  apply Rle_trans with (bpow radix2 40); [|apply bpow_le; lia]. rewrite p2 by lia. change (2 ^ 40) with 1099511627776. lra.
Qed.

(** ** Crossings *)
Definition thR (d : dimn) : R := ((IZR (2 * mm d + 1) / 2 - IZR (sign d) * IZR (d_from d)) / IZR (aa d))%R.

Lemma thR_alt : forall d, active d = true ->
  ((IZR (sign d) * (IZR (2 * mm d + 1) / 2) - IZR (d_from d)) / IZR (vv d) = thR d)%R.
Proof.
  intros d A. unfold thR. rewrite vv_sign. pose proof (aa_pos_R d A).
  destruct (sgn_cases d A) as [[_ S]|[_ S]]; rewrite S; [|replace (IZR (-1)) with (- (1))%R by (simpl; lra)]; field; lra.
Qed.

Lemma Q2R_inject : forall z, Q2R (inject_Z z) = IZR z.
Proof. intros z. unfold Q2R, inject_Z. cbn [Qnum Qden]. rewrite Rinv_1, Rmult_1_r. reflexivity. Qed.

Lemma th_R : forall tau d, inv tau d -> active d = true -> Q2R (th d) = thR d.
Proof.
  intros tau d H A. pose proof (th_thk tau d H A) as E. apply Qeq_eqR in E. rewrite E. unfold thk, Qdiv.
  assert (NZ : ~ (slope d == 0)%Q) by (apply slope_nz; exact A).
  rewrite Q2R_mult, Q2R_inv by exact NZ. unfold slope. rewrite Q2R_minus, Q2R_mult, Q2R_plus, !Q2R_inject.
  rewrite <- (thR_alt d A). unfold Rdiv at 1. f_equal. f_equal. f_equal.
  replace (Q2R (1 # 2)) with (/ 2)%R by (unfold Q2R; cbn [Qnum Qden]; lra). rewrite plus_IZR, mult_IZR. lra.
Qed.

Lemma thR_gap : forall d d', active d = true -> active d' = true -> aa d <= 707 -> aa d' <= 707 ->
  (thR d' < thR d)%R -> (gap <= thR d - thR d')%R.
Proof.
  intros d d' H H' B B' L. pose proof (aa_pos_R d H) as P. pose proof (aa_pos_R d' H') as P'.
  set (N := (2 * mm d + 1 - 2 * (sign d * d_from d)) * aa d' - (2 * mm d' + 1 - 2 * (sign d' * d_from d')) * aa d).
  assert (E : (thR d - thR d' = IZR N / (2 * (IZR (aa d) * IZR (aa d'))))%R).
  { unfold thR, N. rewrite minus_IZR, !mult_IZR, !minus_IZR, !mult_IZR. field. lra. }
  assert (PP : (0 < 2 * (IZR (aa d) * IZR (aa d')))%R) by nra.
  assert (HN : 1 <= N).
  { destruct (Z_lt_le_dec N 1) as [X|X]; [|exact X]. exfalso. assert (IZR N <= 0)%R by (apply IZR_le; lia).
    assert (0 < IZR N / (2 * (IZR (aa d) * IZR (aa d'))))%R by lra.
    assert (IZR N / (2 * (IZR (aa d) * IZR (aa d'))) <= 0)%R; [|lra]. unfold Rdiv. pose proof (Rinv_0_lt_compat _ PP). nra. }
  rewrite E. unfold gap. apply IZR_le in HN. apply Rle_trans with (1 / (2 * (IZR (aa d) * IZR (aa d'))))%R.
  - unfold Rdiv. rewrite !Rmult_1_l. apply Rinv_le_contravar; [exact PP|]. apply IZR_le in B, B'. nra.
  - unfold Rdiv. apply Rmult_le_compat_r; [apply Rlt_le, Rinv_0_lt_compat; exact PP|lra].
Qed.

Lemma thR_bound : forall d, active d = true -> 0 <= mm d <= aa d -> Z.abs (d_from d) <= 4096 -> (-4096 <= thR d <= 4098)%R.
Proof.
  intros d A [M1 M2] B. pose proof (aa_pos_R d A) as P. unfold thR.
  assert (S : (Rabs (IZR (sign d) * IZR (d_from d)) <= 4096)%R).
  { rewrite Rabs_mult, (sign_abs d A), Rmult_1_l, <- abs_IZR. apply IZR_le. exact B. }
  apply Rabs_le_inv in S. apply IZR_le in M1, M2. rewrite plus_IZR, mult_IZR.
  set (a := IZR (aa d)) in *. set (y := (IZR (sign d) * IZR (d_from d))%R) in *.
  split; apply Rmult_le_reg_r with a; try lra; unfold Rdiv; rewrite Rmult_assoc, Rinv_l, Rmult_1_r by lra; nra.
Qed.

(** ** State of the two programs; [tau]: the parameter the floating point code holds *)
Record rel2 (tau : R) (d : dimn) (g : fdimn) : Prop := {
  q_from : g_from g = d_from d; q_to : g_to g = d_to d; q_c : g_c g = d_c d;
  q_v : g_v g = dz (vv d); q_isign : g_isign g = sign d;
  q_small : aa d <= 707 /\ Z.abs (d_from d) <= 4096;
  q_count : active d = true -> 0 <= mm d <= aa d;
  q_sign : active d = true -> is_finite (g_sign g) = true /\ B2R (g_sign g) = IZR (sign d);
  q_next : active d = true -> is_finite (g_next g) = true /\ B2R (g_next g) = (IZR (sign d) * (IZR (2 * mm d + 1) / 2))%R;
  q_x : active d = true -> is_finite (g_x g) = true /\
          (Rabs (B2R (g_x g) - (IZR (d_from d) + IZR (vv d) * tau)) <= IZR (aa d) * (24200 * uu))%R
}.

Lemma factive_eq2 : forall tau d g, rel2 tau d g -> factive g = active d.
Proof.
  intros tau d g H. unfold factive, active. f_equal. rewrite (q_v _ _ _ H). fold (vv d). pose proof (proj1 (q_small _ _ _ H)) as B.
  rewrite deq_dz by (unfold aa in B; lia). reflexivity.
Qed.

Lemma fdist_near2 : forall tau d g, rel2 tau d g -> active d = true -> (Rabs tau <= 10000)%R ->
  is_finite (fdist g) = true /\ (Rabs (B2R (fdist g) - (thR d - tau)) <= eps)%R.
Proof.
  intros tau d g H A T. destruct (q_small _ _ _ H) as [B1 B2]. pose proof (q_count _ _ _ H A) as HC.
  destruct (q_next _ _ _ H A) as [Fn Rn]. destruct (q_x _ _ _ H A) as [Fx Rx].
  destruct (dz_value (vv d)) as [Fv Rv]; [unfold aa in B1; lia|].
  assert (V0 : IZR (vv d) <> 0%R) by (apply active_iff in A; intros E; apply A; apply eq_IZR; exact E).
  assert (V1 : Rabs (IZR (vv d)) = IZR (aa d)) by (rewrite <- abs_IZR; reflexivity).
  pose proof (aa_pos_R d A) as P. assert (P707 : (IZR (aa d) <= 707)%R) by (apply IZR_le; exact B1).
  pose proof (thR_alt d A) as ET.
  assert (Bn : (Rabs (IZR (sign d) * (IZR (2 * mm d + 1) / 2)) <= 708)%R).
  { rewrite Rabs_mult, (sign_abs d A), Rmult_1_l. unfold Rdiv. rewrite Rabs_mult, (Rabs_pos_eq (/ 2)) by lra. rewrite <- abs_IZR.
    assert (IZR (Z.abs (2 * mm d + 1)) <= 1415)%R by (apply IZR_le; lia). lra. }
  assert (Ba : (Rabs (IZR (d_from d)) <= 4096)%R) by (rewrite <- abs_IZR; apply IZR_le; exact B2).
  destruct uu_small as (U0 & U1 & U2). pose proof b200 as BB.
  set (v := IZR (vv d)) in *. set (a := IZR (d_from d)) in *. set (n := (IZR (sign d) * (IZR (2 * mm d + 1) / 2))%R) in *. set (A0 := IZR (aa d)) in *.
  set (x := B2R (g_x g)) in *. set (z := (a + v * tau)%R) in *.
  assert (Bz : (Rabs z <= 14096 * A0)%R).
  { unfold z. eapply Rle_trans; [apply Rabs_triang|]. rewrite Rabs_mult, V1. pose proof (Rabs_pos tau). nra. }
  assert (Bx : (Rabs x <= 14097 * A0)%R).
  { replace x with ((x - z) + z)%R by ring. eapply Rle_trans; [apply Rabs_triang|]. nra. }
  assert (Bnx : (Rabs (n - x) <= 14806 * A0)%R).
  { eapply Rle_trans; [apply Rabs_triang|]. rewrite Rabs_Ropp. lra. }
  destruct (near_minus (g_next g) (g_x g) Fn Fx) as [F1 R1]; [rewrite Rn; fold x; lra|]. rewrite Rn in R1. fold x in R1.
  pose proof (rnd_rel _ _ Bnx) as E1. rewrite <- R1 in E1. set (u := B2R (dminus (g_next g) (g_x g))) in *.
  assert (E1' : (Rabs (u - (n - x)) <= A0 * (14807 * uu))%R) by nra.
  assert (Bu : (Rabs u <= 14807 * A0)%R).
  { replace u with ((u - (n - x)) + (n - x))%R by ring. eapply Rle_trans; [apply Rabs_triang|]. nra. }
  assert (Iv : (Rabs (/ v) * A0 = 1)%R) by (rewrite Rabs_inv, V1; field; lra).
  assert (Buv : (Rabs (u / v) <= 14807)%R).
  { unfold Rdiv. rewrite Rabs_mult. pose proof (Rabs_pos (/ v)). nra. }
  unfold fdist. rewrite (q_v _ _ _ H).
  destruct (near_div (dminus (g_next g) (g_x g)) (dz (vv d)) F1) as [F2 R2]; [rewrite Rv; exact V0|rewrite Rv; fold u v; lra|].
  rewrite Rv in R2. fold u v in R2. split; [exact F2|]. rewrite R2.
  pose proof (rnd_rel _ _ Buv) as E2. rewrite <- ET.
  replace (rnd (u / v) - ((n - a) / v - tau))%R with ((rnd (u / v) - u / v) + (u - (n - x)) * / v + - ((x - z) * / v))%R by (unfold z; field; exact V0).
  eapply Rle_trans; [apply Rabs_triang|]. rewrite Rabs_Ropp. pose proof (Rabs_triang (rnd (u / v) - u / v) ((u - (n - x)) * / v)) as TR.
  rewrite !Rabs_mult in *. pose proof (Rabs_pos (u - (n - x))). pose proof (Rabs_pos (x - z)). pose proof (Rabs_pos (/ v)) as IP.
  assert (M1 : (Rabs (u - (n - x)) * Rabs (/ v) <= 14807 * uu)%R).
  { apply Rle_trans with ((A0 * (14807 * uu)) * Rabs (/ v))%R; [apply Rmult_le_compat_r; assumption|].
    replace (A0 * (14807 * uu) * Rabs (/ v))%R with ((14807 * uu) * (Rabs (/ v) * A0))%R by ring. rewrite Iv. lra. }
  assert (M2 : (Rabs (x - z) * Rabs (/ v) <= 24200 * uu)%R).
  { apply Rle_trans with ((A0 * (24200 * uu)) * Rabs (/ v))%R; [apply Rmult_le_compat_r; assumption|].
    replace (A0 * (24200 * uu) * Rabs (/ v))%R with ((24200 * uu) * (Rabs (/ v) * A0))%R by ring. rewrite Iv. lra. }
  rewrite <- U1. lra.
Qed.

(** ** Who crosses *)
Lemma who_crosses2 : forall tq tau l tm L, Forall (inv tq) l -> small l -> Forall2 (rel2 tau) l L -> (Rabs tau <= 10000)%R -> tmin l = Some tm ->
  exists dm ft, In dm l /\ active dm = true /\ (forall d, In d l -> active d = true -> (thR dm <= thR d)%R) /\
    crosses tm dm = true /\
    ftmin L = Some ft /\ is_finite ft = true /\ (Rabs (B2R ft - (thR dm - tau)) <= eps)%R /\
    Forall2 (fun d g => fcrosses ft g = crosses tm d) l L.
Proof.
  intros tq tau l tm L HI HS HR HT Htm.
  assert (HB : forall d, In d l -> aa d <= 707).
  { intros d Hd. destruct (Forall2_in_l _ _ _ _ _ _ HR Hd) as (g & _ & R). apply (q_small _ _ _ R). }
  destruct (turn tq l tm HI HS Htm) as ((dm & Im & Am & Cm) & LE & IFF). rewrite Forall_forall in HI.
  assert (Em : (th dm == tm + tq)%Q) by (apply IFF; assumption).
  assert (HMIN : forall d, In d l -> active d = true -> (thR dm <= thR d)%R).
  { intros d Hd A. rewrite <- (th_R tq dm), <- (th_R tq d) by auto. apply Qle_Rle. rewrite Em. apply LE; assumption. }
  assert (HC : forall d, In d l -> active d = true -> (crosses tm d = true <-> thR d = thR dm)).
  { intros d Hd A. rewrite (IFF d Hd). rewrite <- (th_R tq dm), <- (th_R tq d) by auto. split.
    - intros [_ E]. apply Qeq_eqR. rewrite E, Em. reflexivity.
    - intros E. split; [exact A|]. apply eqR_Qeq in E. rewrite E. exact Em. }
  assert (ND : forall d g, In d l -> rel2 tau d g -> active d = true ->
    is_finite (fdist g) = true /\ (Rabs (B2R (fdist g) - (thR d - tau)) <= eps)%R) by (intros; apply fdist_near2; auto).
  destruct (ftmin_spec L) as (ft & EF & FF & (gm & Igm & Agm & Egm) & FM).
  - intros g Hg A. destruct (Forall2_in_r _ _ _ _ _ _ HR Hg) as (d & Hd & R). rewrite (factive_eq2 _ _ _ R) in A. apply (ND d g Hd R A).
  - destruct (Forall2_in_l _ _ _ _ _ _ HR Im) as (g & Hg & R). exists g. split; [exact Hg|]. rewrite (factive_eq2 _ _ _ R). exact Am.
  - exists dm, ft. repeat (split; [assumption|]).
    assert (NF : (Rabs (B2R ft - (thR dm - tau)) <= eps)%R).
    { destruct (Forall2_in_r _ _ _ _ _ _ HR Igm) as (d1 & Hd1 & R1). rewrite (factive_eq2 _ _ _ R1) in Agm.
      destruct (ND d1 gm Hd1 R1 Agm) as [_ N1]. rewrite <- Egm in N1. specialize (HMIN d1 Hd1 Agm).
      destruct (Forall2_in_l _ _ _ _ _ _ HR Im) as (g2 & Hg2 & R2). destruct (ND dm g2 Im R2 Am) as [_ N2].
      assert (A2 : factive g2 = true) by (rewrite (factive_eq2 _ _ _ R2); exact Am). specialize (FM g2 Hg2 A2).
      apply Rabs_le_inv in N1, N2. apply Rabs_le. lra. }
    split; [exact NF|].
    apply Forall2_weaken with (1 := HR). intros d g Hd Hg R. unfold fcrosses. rewrite (factive_eq2 _ _ _ R).
    destruct (active d) eqn:A; cbn [andb]; [|unfold crosses; rewrite A; reflexivity].
    destruct (ND d g Hd R A) as [Fg Ng]. pose proof (HMIN d Hd A) as HM.
    assert (FM' : (B2R ft <= B2R (fdist g))%R) by (apply FM; [exact Hg|rewrite (factive_eq2 _ _ _ R); exact A]).
    destruct eps_small as (E0 & E1 & E2). destruct tolerance_value as (FT & RT & T1 & T2).
    assert (EP1 : (eps <= 1)%R) by (unfold eps; change 1%R with (bpow radix2 0); apply bpow_le; lia).
    assert (BIG : (Rabs (B2R (fdist g) - B2R ft) <= bpow radix2 200)%R).
    { apply Rabs_le_inv in Ng, NF. apply Rabs_le. pose proof b200.
      destruct (Forall2_in_l _ _ _ _ _ _ HR Im) as (g2 & Hg2 & R2).
      pose proof (thR_bound d A (q_count _ _ _ R A) (proj2 (q_small _ _ _ R))).
      pose proof (thR_bound dm Am (q_count _ _ _ R2 Am) (proj2 (q_small _ _ _ R2))). lra. }
    destruct (near_minus (fdist g) ft Fg FF BIG) as [Fm Rm].
    assert (FA : is_finite (dabs (dminus (fdist g) ft)) = true) by (unfold dabs; rewrite is_finite_Babs; exact Fm).
    rewrite dlt_R by assumption. unfold dabs at 1. rewrite B2R_Babs, Rm.
    assert (P0 : (0 <= rnd (B2R (fdist g) - B2R ft))%R).
    { rewrite <- (round_0 radix2 (FLT_exp (-1074) 53) ZnearestE). apply rnd_le. lra. }
    rewrite (Rabs_pos_eq _ P0). specialize (HC d Hd A).
    destruct (Rle_lt_or_eq_dec _ _ HM) as [LT|EQ].
    + assert (CF : crosses tm d = false) by (destruct (crosses tm d); [exfalso; destruct HC as [HC _]; specialize (HC eq_refl); lra|reflexivity]).
      rewrite CF. apply Rlt_bool_false. rewrite <- RT. apply rnd_le.
      pose proof (thR_gap d dm A Am (HB _ Hd) (HB _ Im) LT) as G. apply Rabs_le_inv in Ng, NF. lra.
    + assert (CT : crosses tm d = true) by (apply HC; auto).
      rewrite CT. apply Rlt_bool_true. apply Rle_lt_trans with (rnd (2 * eps)).
      * apply rnd_le. apply Rabs_le_inv in Ng, NF. lra.
      * rewrite round_generic; [lra|apply valid_rnd_N|]. unfold eps. replace (2 * bpow radix2 (-37))%R with (bpow radix2 (-36)).
        -- apply generic_format_bpow. unfold FLT_exp. lia.
        -- change (-36) with (1 + -37). rewrite bpow_plus. reflexivity.
Qed.

(** ** One turn *)
Definition fnx (ft : double) (g : fdimn) : fdimn := fmove ft (if fcrosses ft g then fcross g else g).

Lemma fnext_map : forall ft L, map (fmove ft) (fcross_all ft L) = map (fnx ft) L.
Proof. intros. unfold fcross_all. rewrite map_map. reflexivity. Qed.

Lemma nx_same : forall tm ft d g, same d g -> fcrosses ft g = crosses tm d -> same (nx tm d) (fnx ft g).
Proof.
  intros tm ft d g S C. unfold nx, fnx. rewrite C. destruct (crosses tm d); [apply cross_same in S|]; exact S.
Qed.

Lemma nx_rel2 : forall tm tau ft d g, rel2 tau d g -> fcrosses ft g = crosses tm d ->
  (active d = true -> 0 <= mm (nx tm d) <= aa d) -> is_finite ft = true -> (Rabs (B2R ft) <= 10000)%R ->
  rel2 (B2R ft) (nx tm d) (fnx ft g).
Proof.
  intros tm tau ft d g R HC HM FF HT. pose proof (nx_mm tm d) as EM. destruct (q_small _ _ _ R) as [B1 B2].
  assert (Ev : vv (nx tm d) = vv d) by (unfold vv; rewrite nx_from, nx_to; reflexivity).
  split; rewrite ?nx_from, ?nx_to, ?Ev, ?nx_sign, ?nx_active, ?nx_aa.
  - unfold fnx. destruct (fcrosses ft g); apply (q_from _ _ _ R).
  - unfold fnx. destruct (fcrosses ft g); apply (q_to _ _ _ R).
  - unfold fnx, nx. rewrite HC. destruct (crosses tm d); cbn [fmove fcross move cross g_c d_c g_isign]; rewrite (q_c _ _ _ R); [rewrite (q_isign _ _ _ R)|]; reflexivity.
  - unfold fnx. destruct (fcrosses ft g); apply (q_v _ _ _ R).
  - unfold fnx. destruct (fcrosses ft g); apply (q_isign _ _ _ R).
  - auto.
  - exact HM.
  - unfold fnx. destruct (fcrosses ft g); apply (q_sign _ _ _ R).
  - intros A. specialize (HM A). rewrite EM in *. unfold fnx. rewrite HC. destruct (q_next _ _ _ R A) as [Fn Rn]. destruct (q_sign _ _ _ R A) as [Fs Rs].
    destruct (crosses tm d) eqn:E; cbn [fmove fcross g_next]; [|auto].
    assert (EX : (B2R (g_next g) + B2R (g_sign g) = IZR (sign d * (2 * (mm d + 1) + 1)) / 2)%R).
    { rewrite Rn, Rs, !mult_IZR, !plus_IZR, !mult_IZR, !plus_IZR. lra. }
    assert (SG : Z.abs (sign d * (2 * (mm d + 1) + 1)) <= 2000).
    { rewrite Z.abs_mul. assert (Z.abs (sign d) <= 1) by (unfold sign; destruct (d_to d - d_from d); cbn; lia). nia. }
    destruct (near_plus (g_next g) (g_sign g) Fn Fs) as [Fp Rp].
    + rewrite EX. unfold Rdiv. rewrite Rabs_mult, (Rabs_pos_eq (/ 2)) by lra. rewrite <- abs_IZR. apply IZR_le in SG. pose proof b200. lra.
    + split; [exact Fp|]. rewrite Rp, EX, rnd_half by lia. rewrite mult_IZR. lra.
  - intros A.
    assert (EX : g_x (fnx ft g) = dplus (dz (d_from d)) (dtimes (dz (vv d)) ft)).
    { unfold fnx. destruct (fcrosses ft g); cbn [fmove fcross g_x g_from g_v]; rewrite (q_from _ _ _ R), (q_v _ _ _ R); reflexivity. }
    rewrite EX. destruct (dz_value (vv d)) as [Fv Rv]; [unfold aa in B1; lia|]. destruct (dz_value (d_from d)) as [Fa Ra]; [lia|].
    assert (V1 : Rabs (IZR (vv d)) = IZR (aa d)) by (rewrite <- abs_IZR; reflexivity).
    pose proof (aa_pos_R d A) as P. assert (P707 : (IZR (aa d) <= 707)%R) by (apply IZR_le; exact B1).
    assert (Ba : (Rabs (IZR (d_from d)) <= 4096)%R) by (rewrite <- abs_IZR; apply IZR_le; exact B2).
    destruct uu_small as (U0 & U1 & U2). pose proof b200 as BB.
    set (v := IZR (vv d)) in *. set (a := IZR (d_from d)) in *. set (t := B2R ft) in *. set (A0 := IZR (aa d)) in *.
    assert (Bv : (Rabs (v * t) <= 10000 * A0)%R) by (rewrite Rabs_mult, V1; pose proof (Rabs_pos t); nra).
    destruct (near_times (dz (vv d)) ft Fv FF) as [Fp Rp]; [rewrite Rv; fold t v; lra|].
    rewrite Rv in Rp. fold t v in Rp. pose proof (rnd_rel _ _ Bv) as E1. rewrite <- Rp in E1. set (p := B2R (dtimes (dz (vv d)) ft)) in *.
    assert (E1' : (Rabs (p - v * t) <= A0 * (10001 * uu))%R) by nra.
    assert (Bp : (Rabs p <= 10001 * A0)%R).
    { replace p with ((p - v * t) + v * t)%R by ring. eapply Rle_trans; [apply Rabs_triang|]. nra. }
    assert (Bs : (Rabs (a + p) <= 14097 * A0)%R) by (eapply Rle_trans; [apply Rabs_triang|]; lra).
    destruct (near_plus (dz (d_from d)) (dtimes (dz (vv d)) ft) Fa Fp) as [Fx Rx]; [rewrite Ra; fold p a; lra|].
    rewrite Ra in Rx. fold p a in Rx. split; [exact Fx|]. rewrite Rx.
    pose proof (rnd_rel _ _ Bs) as E2.
    replace (rnd (a + p) - (a + v * t))%R with ((rnd (a + p) - (a + p)) + (p - v * t))%R by ring.
    eapply Rle_trans; [apply Rabs_triang|]. nra.
Qed.

(** ** Once an axis has gone too far, neither loop ends *)
Lemma over_exact : forall fl fuel l tau, Forall (inv tau) l -> (exists d, In d l /\ active d = true /\ aa d < mm d) ->
  line_loop fl fuel l = NoFuel.
Proof.
  intros fl. induction fuel as [|fuel IH]; intros l tau HI (d & Hd & Ad & Hm); [reflexivity|]. cbn [line_loop].
  destruct (tmin_some l d Hd Ad) as (tm & ET). rewrite ET. fold (next_l tm l). pose proof (next_inv tau tm l HI) as HI'.
  assert (HB' : In (nx tm d) (next_l tm l)) by (rewrite next_map; apply in_map; exact Hd).
  assert (HM' : aa (nx tm d) < mm (nx tm d)) by (rewrite nx_aa, nx_mm; destruct (crosses tm d); lia).
  assert (AA : active (nx tm d) = true) by (rewrite nx_active; exact Ad).
  assert (NR : reached (next_l tm l) = false).
  { destruct (reached (next_l tm l)) eqn:E; [|reflexivity]. pose proof (proj1 (reached_mm tm _ HI') E _ HB' AA). lia. }
  rewrite NR, (IH (next_l tm l) tm HI'); [reflexivity|]. exists (nx tm d). auto.
Qed.

Lemma over_float : forall fl fuel L, (exists g, In g L /\ factive g = true /\ 0 < g_isign g * (g_c g - g_to g)) ->
  fline_loop fl fuel L = NoFuel.
Proof.
  intros fl. induction fuel as [|fuel IH]; intros L (g & Hg & Ag & Hm); [reflexivity|]. cbn [fline_loop].
  assert (EF : exists ft, ftmin L = Some ft).
  { unfold ftmin. destruct (filter factive L) as [|x L'] eqn:E; [|eauto]. exfalso.
    assert (In g (filter factive L)) as X by (apply filter_In; auto). rewrite E in X. destruct X. }
  destruct EF as (ft & EF). rewrite EF, fnext_map.
  assert (HB' : In (fnx ft g) (map (fnx ft) L)) by (apply in_map; exact Hg).
  assert (HA' : factive (fnx ft g) = true) by (unfold fnx; destruct (fcrosses ft g); exact Ag).
  assert (HM' : 0 < g_isign (fnx ft g) * (g_c (fnx ft g) - g_to (fnx ft g))).
  { unfold fnx. destruct (fcrosses ft g); cbn [fmove fcross g_isign g_c g_to]; [|exact Hm]. nia. }
  assert (NR : freached (map (fnx ft) L) = false).
  { destruct (freached (map (fnx ft) L)) eqn:E; [|reflexivity]. unfold freached in E. rewrite forallb_forall in E.
    specialize (E _ HB'). apply Z.eqb_eq in E. exfalso. rewrite E, Z.sub_diag, Z.mul_0_r in HM'. lia. }
  rewrite NR, IH; [reflexivity|]. exists (fnx ft g). auto.
Qed.

(** ** The loop *)
Lemma loop_eq2 : forall fl fuel tq tau l L k M, Forall (inv tq) l -> small l -> Forall2 (rel2 tau) l L ->
  (exists d, In d l /\ active d = true) -> 0 <= k -> k + leftover l <= 2121 ->
  (- 5000 - IZR k * eps <= tau <= 5000 + M + IZR k * eps)%R ->
  (forall d, In d l -> active d = true -> (M <= thR d)%R) ->
  fline_loop fl fuel L = line_loop fl fuel l.
Proof.
  intros fl. induction fuel as [|fuel IH]; intros tq tau l L k M HI HS HR (da & Ia & Aa) Hk Hkl Htau HM; [reflexivity|].
  cbn [fline_loop line_loop].
  destruct (tmin_some l da Ia Aa) as (tm & HTm).
  assert (QC : forall d, In d l -> active d = true -> 0 <= mm d <= aa d /\ Z.abs (d_from d) <= 4096).
  { intros d Hd A. destruct (Forall2_in_l _ _ _ _ _ _ HR Hd) as (g & _ & R). split; [apply (q_count _ _ _ R A)|apply (q_small _ _ _ R)]. }
  assert (LN : 0 <= leftover l) by (apply leftover_nonneg; intros d Hd A; destruct (QC d Hd A); lia).
  assert (EPK : forall j, 0 <= j <= 2122 -> (0 <= IZR j * eps <= 1)%R).
  { intros j [J1 J2]. apply IZR_le in J1, J2.
    assert (0 < eps <= / 4096)%R by (split; [apply bpow_gt_0|unfold eps; rewrite (p2n (-37)) by lia; change (2 ^ (- (-37))) with 137438953472; lra]). nra. }
  assert (TB : forall d, In d l -> active d = true -> (-4096 <= thR d <= 4098)%R) by (intros d Hd A; destruct (QC d Hd A); apply thR_bound; auto).
  assert (HT : (Rabs tau <= 10000)%R).
  { pose proof (EPK k ltac:(lia)). pose proof (HM da Ia Aa). pose proof (TB da Ia Aa). apply Rabs_le. lra. }
  destruct (who_crosses2 tq tau l tm L HI HS HR HT HTm) as (dm & ft & Im & Am & HMIN & Cm & EF & FF & NF & FC).
  rewrite HTm, EF, fnext_map. fold (next_l tm l).
  assert (Htau' : (- 5000 - IZR (k + 1) * eps <= B2R ft <= 5000 + thR dm + IZR (k + 1) * eps)%R).
  { apply Rabs_le_inv in NF. pose proof (HM dm Im Am). rewrite plus_IZR. lra. }
  assert (HT' : (Rabs (B2R ft) <= 10000)%R).
  { pose proof (EPK (k + 1) ltac:(lia)). pose proof (TB dm Im Am). apply Rabs_le. lra. }
  assert (FE : forall d g, In (d, g) (combine l L) -> fcrosses ft g = crosses tm d).
  { clear -FC. induction FC; intros d g Hd; [destruct Hd|]. destruct Hd as [E|Hd]; [injection E as <- <-; assumption|auto]. }
  assert (HSame : Forall2 same l L).
  { apply Forall2_weaken with (1 := HR). intros d g _ _ R. split; [apply (q_to _ _ _ R)|]. split; [apply (q_c _ _ _ R)|apply (q_isign _ _ _ R)]. }
  assert (HSC : Forall2 (fun d g => same d g /\ fcrosses ft g = crosses tm d) l L).
  { clear -HSame FC. induction HSame as [|d g l L S HSame IHS]; [constructor|]. inversion FC; subst. constructor; auto. }
  assert (HS' : Forall2 same (next_l tm l) (map (fnx ft) L)).
  { rewrite next_map. clear -HSC. induction HSC as [|d g l L [S C] HSC IHS]; [constructor|]. cbn [map]. constructor; [apply nx_same; auto|exact IHS]. }
  rewrite (freached_same _ _ HS'), (findex_same _ _ HS'), (fcross_each_eq tm ft l L HSC [] []) by constructor.
  destruct (reached (next_l tm l)) eqn:ER; [reflexivity|].
  pose proof (next_inv tq tm l HI) as HI'.
  destruct (forallb (fun d => negb (active d) || (mm d <=? aa d)) (next_l tm l)) eqn:EO.
  - rewrite forallb_forall in EO.
    assert (HR' : Forall2 (rel2 (B2R ft)) (next_l tm l) (map (fnx ft) L)).
    { assert (OK : forall d, In d l -> active d = true -> 0 <= mm (nx tm d) <= aa d).
      { intros d Hd A. split.
        - rewrite nx_mm. destruct (QC d Hd A). destruct (crosses tm d); lia.
        - assert (Hn : In (nx tm d) (next_l tm l)) by (rewrite next_map; apply in_map; exact Hd). specialize (EO _ Hn).
          rewrite nx_active, A, nx_aa in EO. cbn [negb orb] in EO. apply Z.leb_le in EO. exact EO. }
      rewrite next_map. clear -HR FC OK FF HT'. induction HR as [|d g l L R HR IHR]; [constructor|]. inversion FC; subst. cbn [map].
      constructor; [apply nx_rel2 with tau; auto; intros; apply OK; simpl; auto|apply IHR; auto; intros; apply OK; simpl; auto]. }
    rewrite (IH tm (B2R ft) (next_l tm l) (map (fnx ft) L) (k + 1) (thR dm)); auto.
    + apply next_small; exact HS.
    + exists (nx tm da). rewrite next_map, nx_active. split; [apply in_map; exact Ia|exact Aa].
    + lia.
    + rewrite leftover_next. assert (1 <= Z.of_nat (length (filter (crosses tm) l))); [|lia].
      assert (X : In dm (filter (crosses tm) l)) by (apply filter_In; auto). destruct (filter (crosses tm) l); [destruct X|cbn [length]; lia].
    + intros d Hd A. rewrite next_map in Hd. apply in_map_iff in Hd. destruct Hd as (x & <- & Hx). rewrite nx_active in A.
      eapply Rle_trans; [apply (HMIN x Hx A)|]. unfold thR. rewrite nx_aa, nx_sign, nx_from, nx_mm. pose proof (aa_pos_R x A).
      apply Rmult_le_compat_r; [apply Rlt_le, Rinv_0_lt_compat; lra|]. apply Rplus_le_compat_r. apply Rmult_le_compat_r; [lra|].
      apply IZR_le. destruct (crosses tm x); lia.
  - assert (OV : exists d, In d (next_l tm l) /\ active d = true /\ aa d < mm d).
    { clear -EO. induction (next_l tm l) as [|d l' IHl]; [discriminate|]. cbn [forallb] in EO. apply andb_false_iff in EO. destruct EO as [EO|EO].
      - apply orb_false_iff in EO. destruct EO as [E1 E2]. apply negb_false_iff in E1. apply Z.leb_gt in E2. exists d. simpl; auto.
      - destruct (IHl EO) as (x & Hx & X). exists x. simpl; auto. }
    rewrite (over_exact fl fuel _ tm HI' OV). rewrite over_float; [reflexivity|].
    destruct OV as (d & Hd & A & Hm).
    rewrite next_map in Hd. apply in_map_iff in Hd. destruct Hd as (x & <- & Hx). rewrite nx_active in A. rewrite nx_aa in Hm.
    assert (Cx : exists g, In g L /\ rel2 tau x g /\ same x g /\ fcrosses ft g = crosses tm x).
    { clear -HR HSC Hx. revert Hx. induction HR as [|d g l L R HR IHR]; intros Hx; [destruct Hx|]. inversion HSC as [|? ? ? ? [S C] HSC']; subst.
      destruct Hx as [<-|Hx]; [exists g; simpl; auto|]. destruct (IHR HSC' Hx) as (g' & Hg' & X). exists g'. simpl; auto. }
    destruct Cx as (g & Hg & Rg & Sg & Cg). exists (fnx ft g). split; [apply in_map; exact Hg|]. split.
    + replace (factive (fnx ft g)) with (factive g) by (unfold fnx; destruct (fcrosses ft g); reflexivity). rewrite (factive_eq2 _ _ _ Rg). exact A.
    + pose proof (nx_same tm ft x g Sg Cg) as (S1 & S2 & S3). rewrite S1, S2, S3.
      assert (A' : active (nx tm x) = true) by (rewrite nx_active; exact A). rewrite <- (nx_aa tm x) in Hm. set (y := nx tm x) in *. clearbody y.
      apply active_iff in A'. unfold mm, aa, vv, sign in *. destruct (Z.sgn_spec (d_to y - d_from y)) as [[? X]|[[? X]|[? X]]]; rewrite X in *; lia.
Qed.

(** ** Start *)
Lemma start_rel2 : forall p q, Z.abs (q - p) <= 707 -> Z.abs p <= 4096 -> rel2 0 (mk p q) (fmk p q).
Proof.
  intros p q B1 B2. assert (B : Z.abs (q - p) <= 2 ^ 53) by lia.
  assert (ES : g_isign (fmk p q) = sign (mk p q) /\ (q - p <> 0 -> g_sign (fmk p q) = dz (Z.sgn (q - p)) /\ g_next (fmk p q) = dtimes (dz (Z.sgn (q - p))) half)).
  { unfold fmk, sign. cbn [g_isign g_sign g_next mk d_from d_to]. rewrite deq_dz by exact B. destruct (Z.eqb_spec (q - p) 0) as [E|E].
    - rewrite E. split; [reflexivity|]. intros X. contradiction.
    - rewrite sign_value by assumption. split; [apply dint_sign|auto]. }
  destruct ES as [ES1 ES2].
  assert (AC : active (mk p q) = true -> q - p <> 0) by (intros A; apply active_iff in A; exact A).
  assert (S1 : Z.abs (Z.sgn (q - p)) <= 1) by (destruct (q - p); cbn; lia).
  assert (M0 : mm (mk p q) = 0) by (unfold mm; cbn [mk d_c d_from]; lia).
  destruct (dz_value (Z.sgn (q - p))) as [F1 R1]; [lia|].
  split; try reflexivity.
  - exact ES1.
  - unfold aa, vv. cbn [mk d_from d_to]. auto.
  - intros _. rewrite M0. unfold aa. lia.
  - intros A. destruct (ES2 (AC A)) as [-> _]. auto.
  - intros A. destruct (ES2 (AC A)) as [_ ->]. destruct half_value as [FH RH]. destruct (near_times (dz (Z.sgn (q - p))) half F1 FH) as [F R].
    + rewrite R1, RH, Rabs_mult, <- abs_IZR, (Rabs_pos_eq (/ 2)) by lra. apply IZR_le in S1. pose proof b200. lra.
    + split; [exact F|]. rewrite R, R1, RH, M0. change (IZR (Z.sgn (q - p)) * / 2)%R with (IZR (Z.sgn (q - p)) / 2)%R. rewrite rnd_half by lia.
      unfold sign. cbn [mk d_from d_to Z.mul Z.add]. lra.
  - intros A. cbn [fmk g_x mk d_from]. destruct (dz_value p) as [F R]; [lia|]. split; [exact F|]. rewrite R.
    replace (IZR p - (IZR p + IZR (vv (mk p q)) * 0))%R with 0%R by ring. rewrite Rabs_R0.
    pose proof (aa_pos_R _ A). destruct uu_small as (U & _). nra.
Qed.

Lemma start_rels2 : forall x0 x1, span x0 x1 <= 707 -> Forall (fun c => Z.abs c <= 4096) x0 ->
  Forall2 (rel2 0) (mks x0 x1) (map (fun d => fmk (d_from d) (d_to d)) (mks x0 x1)).
Proof.
  intros x0. induction x0 as [|p x0 IH]; intros x1 HS HF; [constructor|]. destruct x1 as [|q x1]; [constructor|].
  cbn [mks map]. cbn [span] in HS. inversion HF; subst.
  constructor; [|apply IH; [lia|assumption]]. cbn [mk d_from d_to]. apply start_rel2; [lia|assumption].
Qed.

Lemma fline_eq2 : forall fl fuel x0 x1, (1 <= length x0 <= 3)%nat -> length x1 = length x0 -> span x0 x1 <= 707 ->
  Forall (fun c => Z.abs c <= 4096) x0 -> fline fl fuel x0 x1 = line fl fuel x0 x1.
Proof.
  intros fl fuel x0 x1 HL HL' HS HF. destruct (line_start x0 x1 HL HL' ltac:(lia)) as [E1 E2].
  unfold fline, line. rewrite E1, fline_init_eq, E2, !bind_Ok.
  destruct (mks_start x0 x1 HL') as (S1 & S2 & S3 & S4 & S5 & S6 & S7).
  pose proof (start_rels2 x0 x1 HS HF) as HR.
  assert (HSame : Forall2 same (mks x0 x1) (map (fun d => fmk (d_from d) (d_to d)) (mks x0 x1))).
  { apply Forall2_weaken with (1 := HR). intros d g _ _ R. split; [apply (q_to _ _ _ R)|]. split; [apply (q_c _ _ _ R)|apply (q_isign _ _ _ R)]. }
  rewrite (findex_same _ _ HSame). f_equal.
  destruct (list_eq_dec Z.eq_dec x0 x1) as [E|NE].
  - apply loop_undefined. intros d Hd. split; [|apply mks_aa in Hd; lia]. subst x1. clear -Hd. induction x0 as [|p x0 IH]; [destruct Hd|].
    cbn [mks] in Hd. destruct Hd as [<-|Hd]; [|auto]. unfold active. cbn [mk d_from d_to]. rewrite Z.sub_diag. reflexivity.
  - pose proof (manhattan_span x0 x1 HL') as HMS.
    apply loop_eq2 with 0%Q 0%R 0 (-5000)%R; auto.
    + apply mks_small; exact HS.
    + apply mks_active; assumption.
    + lia.
    + rewrite S7. unfold lenZ in *. nia.
    + lra.
    + intros d Hd A. destruct (Forall2_in_l _ _ _ _ _ _ HR Hd) as (g & _ & R).
      pose proof (thR_bound d A (q_count _ _ _ R A) (proj2 (q_small _ _ _ R))). lra.
Qed.

Theorem fpath_eq_any : forall fuel x0 x1 mode, (1 <= length x0 <= 3)%nat -> length x1 = length x0 -> span x0 x1 <= 707 ->
  Forall (fun c => Z.abs c <= 4096) x0 -> fpath fuel x0 x1 mode = path fuel x0 x1 mode.
Proof. intros fuel x0 x1 [| |] HL HL' HS HF; cbn [fpath path]; [reflexivity| |]; apply fline_eq2; assumption. Qed.

Lemma factual_ends : forall fuel x0 x1, (1 <= length x0 <= 3)%nat -> length x1 = length x0 -> x0 <> x1 ->
  span x0 x1 <= 707 -> Forall (fun c => Z.abs c <= 4096) x0 -> meets_origin x0 x1 -> (Z.to_nat (manhattan x0 x1) <= fuel)%nat ->
  exists rows, fpath fuel x0 x1 actual = Ok rows /\ path_between (some_closer x1) x0 x1 rows /\
    forall r, In r rows -> exists t, touches_from x0 x1 t r.
Proof. intros. rewrite fpath_eq_any by assumption. apply actual_ends; assumption. Qed.

Lemma ffull_ends : forall fuel x0 x1, (1 <= length x0 <= 3)%nat -> length x1 = length x0 -> x0 <> x1 ->
  span x0 x1 <= 707 -> Forall (fun c => Z.abs c <= 4096) x0 -> meets_origin x0 x1 -> (Z.to_nat (manhattan x0 x1) <= fuel)%nat ->
  exists rows, fpath fuel x0 x1 full = Ok rows /\ path_between (one_closer x1) x0 x1 rows /\
    lenZ rows = manhattan x0 x1 + 1 /\ forall r, In r rows -> exists t, touches_from x0 x1 t r.
Proof. intros. rewrite fpath_eq_any by assumption. apply full_ends; assumption. Qed.

Lemma fnever_ends : forall fuel x0 x1 mode, mode = actual \/ mode = full -> (1 <= length x0 <= 3)%nat -> length x1 = length x0 -> x0 <> x1 ->
  span x0 x1 <= 707 -> Forall (fun c => Z.abs c <= 4096) x0 -> ~ meets_origin x0 x1 -> fpath fuel x0 x1 mode = NoFuel.
Proof. intros. rewrite fpath_eq_any by assumption. apply never_ends; assumption. Qed.
