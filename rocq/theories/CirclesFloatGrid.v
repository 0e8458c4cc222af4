(** * CirclesFloatGrid: the grid of random circles in [double]s (proofs only) *)

From Coq Require Import ZArith QArith Qreals Reals Ratan Machin List Bool Lia Lra Psatz.
From Flocq Require Import Core Relative BinarySingleNaN.
From Verif Require Import Base BaseLemmas SpecCluster Path Circles SpecCircles CirclesProofs Double SpecDouble DoubleProofs DoubleError
  PathFloat PathFloatProofs CirclesFloat SpecCirclesFloat CirclesFloatProofs.
Import ListNotations.
Open Scope Z_scope.

Local Notation rnd := (round radix2 (FLT_exp (-1074) 53) ZnearestE).

(** ** Quotients of integers *)

Lemma rnd_ge_int : forall k r, Z.abs k <= 2 ^ 53 -> (IZR k <= r)%R -> (IZR k <= rnd r)%R.
Proof. intros k r K H. apply round_ge_generic; [apply FLT_exp_valid; reflexivity|apply valid_rnd_N|apply (int_format k K)|exact H]. Qed.

Lemma tiny : (bpow radix2 (-1075) <= bpow radix2 (-200))%R.
Proof. apply bpow_le. lia. Qed.

Lemma dint_rnd : forall x q r, is_finite x = true -> B2R x = rnd r -> 0 <= q <= 2 ^ 53 -> (IZR q <= r)%R ->
  (r + bpow radix2 (-53) * r + bpow radix2 (-200) < IZR (q + 1))%R -> dint x = q.
Proof.
  intros x q r F V Q L H. assert (Q0 : (0 <= IZR q)%R) by (apply IZR_le; lia).
  pose proof (rnd_ge_int q r ltac:(lia) L) as G. pose proof (rnd_error r) as E. pose proof tiny as T.
  rewrite (Rabs_pos_eq r) in E by lra. apply Rabs_le_inv in E.
  assert (A : q <= dint x) by (apply dint_spec; [exact F|lra|lra]).
  assert (B : ~ q + 1 <= dint x); [|lia]. rewrite dint_spec by (try exact F; lra). lra.
Qed.

Lemma dint_quotient : forall x y a b, is_finite x = true -> B2R y <> 0%R -> (B2R x / B2R y = IZR a / IZR b)%R ->
  0 <= a < 2 ^ 53 -> 0 < b <= 2 ^ 53 -> dint (ddiv x y) = a / b.
Proof.
  intros x y a b F Y E A B. assert (B0 : (0 < IZR b)%R) by (apply IZR_lt; lia). assert (A0 : (0 <= IZR a)%R) by (apply IZR_le; lia).
  assert (B1 : (1 <= IZR b)%R) by (apply IZR_le; lia).
  assert (A53 : (IZR a <= IZR (2 ^ 53))%R) by (apply IZR_le; lia).
  assert (QA : (0 <= IZR a / IZR b <= IZR a)%R).
  { split; [apply Rmult_le_pos; [lra|left; apply Rinv_0_lt_compat; lra]|]. apply Rmult_le_reg_r with (IZR b); [lra|]. unfold Rdiv. rewrite Rmult_assoc, Rinv_l by lra. nra. }
  destruct (quotient_of x y F Y) as [G V].
  { rewrite E. rewrite Rabs_pos_eq by lra. apply Rle_trans with (IZR (2 ^ 53)); [lra|]. rewrite <- p2 by lia. apply bpow_le. lia. }
  apply dint_rnd with (IZR a / IZR b)%R; [exact G|rewrite V, E; reflexivity| | |].
  - split; [apply Z.div_pos; lia|]. apply Z.div_le_upper_bound; [lia|]. nia.
  - apply le_quotient; [lia|]. rewrite Z.mul_comm. apply Z.mul_div_le. lia.
  - pose proof (Z.mul_succ_div_gt a b ltac:(lia)) as S.
    assert (S2 : (IZR a + 1 <= IZR (a / b + 1) * IZR b)%R). { rewrite <- mult_IZR, <- plus_IZR. apply IZR_le. lia. }
    assert (U : (bpow radix2 (-53) * IZR (2 ^ 53) = 1)%R) by (rewrite <- p2 by lia; rewrite <- bpow_plus; reflexivity).
    assert (A54 : (IZR a + 1 <= IZR (2 ^ 53))%R) by (rewrite <- plus_IZR; apply IZR_le; lia).
    assert (P : (0 < bpow radix2 (-53))%R) by apply bpow_gt_0.
    assert (T : (bpow radix2 (-200) * IZR b < bpow radix2 (-53))%R).
    { apply Rle_lt_trans with (bpow radix2 (-200) * bpow radix2 53)%R.
      - apply Rmult_le_compat_l; [apply bpow_ge_0|]. rewrite p2 by lia. apply IZR_le. lia.
      - rewrite <- bpow_plus. apply bpow_lt. lia. }
    apply Rmult_lt_reg_r with (IZR b); [lra|].
    replace ((IZR a / IZR b + bpow radix2 (-53) * (IZR a / IZR b) + bpow radix2 (-200)) * IZR b)%R
      with (IZR a + bpow radix2 (-53) * IZR a + bpow radix2 (-200) * IZR b)%R by (field; lra).
    assert (bpow radix2 (-53) * (IZR a + 1) <= 1)%R by nra. lra.
Qed.

Lemma literal : forall (x : double) m e, B2SF x = SpecFloat.S754_finite false m e -> is_finite x = true /\ B2R x = (IZR (Zpos m) * bpow radix2 e)%R.
Proof.
  intros x m e H. destruct x as [s|s| |s m' e' P]; try discriminate. cbn [B2SF] in H. inversion H; subst. split; [reflexivity|]. reflexivity.
Qed.

Lemma twentieth_value : is_finite lit_twentieth = true /\ B2R lit_twentieth = (IZR 7205759403792794 * bpow radix2 (-57))%R.
Proof. apply literal. vm_compute. reflexivity. Qed.
Lemma threetenths_value : is_finite lit_threetenths = true /\ B2R lit_threetenths = (IZR 5404319552844595 * bpow radix2 (-54))%R.
Proof. apply literal. vm_compute. reflexivity. Qed.
Lemma pi_value : is_finite lit_pi = true /\ B2R lit_pi = (IZR 7074237752028440 * bpow radix2 (-51))%R.
Proof. apply literal. vm_compute. reflexivity. Qed.

Lemma ftwentieth_exact : forall n, 0 <= n <= 2 ^ 40 -> ftwentieth n = n / 20.
Proof.
  intros n N. unfold ftwentieth. destruct twentieth_value as [F V]. destruct (dz_value n ltac:(lia)) as [Fn Vn].
  assert (N0 : (0 <= IZR n <= IZR (2 ^ 40))%R) by (split; apply IZR_le; lia).
  assert (C : (1 / 20 <= B2R lit_twentieth <= 1 / 20 + bpow radix2 (-50))%R).
  { rewrite V, !p2n by lia. change (- (-57)) with 57. change (- (-50)) with 50. change (2 ^ 57) with 144115188075855872. change (2 ^ 50) with 1125899906842624. lra. }
  assert (B : (bpow radix2 (-50) <= / 1000000000000000)%R).
  { rewrite p2n by lia. change (- (-50)) with 50. change (2 ^ 50) with 1125899906842624. lra. }
  assert (B2 : (bpow radix2 (-53) <= / 8000000000000000)%R).
  { rewrite p2n by lia. change (- (-53)) with 53. change (2 ^ 53) with 9007199254740992. lra. }
  assert (B3 : (bpow radix2 (-200) <= bpow radix2 (-53))%R) by (apply bpow_le; lia).
  assert (P : (0 < bpow radix2 (-50) /\ 0 < bpow radix2 (-53))%R) by (split; apply bpow_gt_0).
  change (2 ^ 40) with 1099511627776 in N0.
  destruct (product_of lit_twentieth (dz n) F Fn) as [G W].
  { rewrite Vn, Rabs_pos_eq by nra. apply Rle_trans with (IZR (2 ^ 41)); [change (2 ^ 41) with 2199023255552; nra|].
    rewrite <- p2 by lia. apply bpow_le. lia. }
  pose proof (Z.mul_div_le n 20 ltac:(lia)) as D1. pose proof (Z.mod_pos_bound n 20 ltac:(lia)) as D2.
  pose proof (Z.div_mod n 20 ltac:(lia)) as D3.
  assert (D4 : (20 * IZR (n / 20) <= IZR n)%R) by (rewrite <- mult_IZR; apply IZR_le; lia).
  assert (D5 : (IZR n <= 20 * IZR (n / 20) + 19)%R) by (rewrite <- mult_IZR, <- plus_IZR; apply IZR_le; lia).
  apply dint_rnd with (B2R lit_twentieth * B2R (dz n))%R; [exact G|exact W| | |].
  - split; [apply Z.div_pos; lia|]. lia.
  - rewrite Vn. nra.
  - rewrite Vn, plus_IZR. set (c := B2R lit_twentieth) in *.
    assert (c * IZR n <= IZR n / 20 + 1 / 500)%R by nra.
    assert (c * IZR n <= 100000000000)%R by nra.
    assert (bpow radix2 (-53) * (c * IZR n) <= 1 / 500)%R by nra. lra.
Qed.

Lemma fgrid_exact : forall i n c, 0 <= i -> 0 <= n -> i * n < 2 ^ 53 -> 0 <= i <= 2 ^ 53 -> 0 <= n <= 2 ^ 53 -> 0 < c <= 2 ^ 53 ->
  fgrid i n c = i * n / c.
Proof.
  intros i n c I N P I2 N2 C. unfold fgrid.
  pose proof (exactly_times _ _ _ _ _ _ (exactly_dz i ltac:(lia)) (exactly_dz n ltac:(lia)) ltac:(lia)) as T.
  apply exactly_value in T. destruct T as [T1 T2]. rewrite zq_times, Q2R_zq in T2.
  destruct (dz_value c ltac:(lia)) as [Fc Vc]. apply dint_quotient; [exact T1| |rewrite T2, Vc; reflexivity|nia|lia].
  rewrite Vc. apply not_0_IZR. lia.
Qed.

Lemma fpitch_exact : forall n c, 0 <= n <= 2 ^ 50 -> 0 < c <= 2 ^ 50 -> fpitch n c = n / (2 * c).
Proof.
  intros n c N C. unfold fpitch. destruct half_value as [Fh Vh]. destruct (dz_value n ltac:(lia)) as [Fn Vn]. destruct (dz_value c ltac:(lia)) as [Fc Vc].
  assert (N0 : (0 <= IZR n <= IZR (2 ^ 50))%R) by (split; apply IZR_le; lia).
  destruct (product_of half (dz n) Fh Fn) as [G W].
  { rewrite Vh, Vn, Rabs_pos_eq by lra. apply Rle_trans with (IZR (2 ^ 50)); [lra|]. rewrite <- p2 by lia. apply bpow_le. lia. }
  rewrite Vh, Vn in W. replace (/ 2 * IZR n)%R with (IZR n / 2)%R in W by lra. rewrite rnd_half in W by lia.
  assert (C0 : (0 < IZR c)%R) by (apply IZR_lt; lia).
  apply dint_quotient; [exact G|rewrite Vc; lra| |lia|lia].
  rewrite W, Vc, mult_IZR. field. lra.
Qed.

(** ** The number pi *)

Definition qterm (n : nat) : Q :=
  let d := Z.of_nat (2 * n + 1) in
  let t := ((2 # 1) / inject_Z (3 ^ d * d) + 1 / inject_Z (7 ^ d * d))%Q in
  if Nat.even n then t else (- t)%Q.
Fixpoint qsum (n : nat) : Q := match n with O => qterm 0 | S k => Qred (qsum k + qterm (S k))%Q end.

Lemma qterm_value : forall n, Q2R (qterm n) = tg_alt PI_2_3_7_tg n.
Proof.
  intros n. unfold qterm, tg_alt, PI_2_3_7_tg, Ratan_seq. set (k := (2 * n + 1)%nat).
  assert (K : 0 < Z.of_nat k) by (unfold k; lia).
  assert (P3 : 0 < 3 ^ Z.of_nat k) by (apply Z.pow_pos_nonneg; lia). assert (P7 : 0 < 7 ^ Z.of_nat k) by (apply Z.pow_pos_nonneg; lia).
  assert (E3 : IZR (3 ^ Z.of_nat k) = (3 ^ k)%R) by (rewrite <- pow_IZR; reflexivity).
  assert (E7 : IZR (7 ^ Z.of_nat k) = (7 ^ k)%R) by (rewrite <- pow_IZR; reflexivity).
  assert (N : forall z, 0 < z -> ~ (inject_Z z == 0)%Q) by (intros z Hz H; unfold Qeq in H; cbn in H; lia).
  assert (T : Q2R ((2 # 1) / inject_Z (3 ^ Z.of_nat k * Z.of_nat k) + 1 / inject_Z (7 ^ Z.of_nat k * Z.of_nat k))%Q =
              (2 * ((/ 3) ^ k / INR k) + (/ 7) ^ k / INR k)%R).
  { rewrite Qreals.Q2R_plus, !Q2R_div by (apply N; nia).
    assert (J : forall z, Q2R (inject_Z z) = IZR z) by (intros z; unfold Q2R, inject_Z; cbn; lra).
    rewrite !J, !mult_IZR, E3, E7, <- INR_IZR_INZ. replace (Q2R (2 # 1)) with 2%R by (unfold Q2R; cbn; lra).
    replace (Q2R 1) with 1%R by (unfold Q2R; cbn; lra). rewrite !pow_inv.
    assert (0 < 3 ^ k)%R by (apply pow_lt; lra). assert (0 < 7 ^ k)%R by (apply pow_lt; lra).
    assert (0 < INR k)%R by (apply lt_0_INR; lia). field. lra. }
  destruct (Nat.even n) eqn:E.
  - rewrite T. apply Nat.even_spec in E. destruct E as [j J]. rewrite J at 1. rewrite pow_1_even. lra.
  - rewrite Qreals.Q2R_opp, T. assert (O : Nat.odd n = true) by (unfold Nat.odd; rewrite E; reflexivity).
    apply Nat.odd_spec in O. destruct O as [j J]. replace n with (S (2 * j)) at 1 by lia. rewrite pow_1_odd. lra.
Qed.

Lemma qsum_value : forall n, Q2R (qsum n) = sum_f_R0 (tg_alt PI_2_3_7_tg) n.
Proof.
  induction n as [|n IH]; [apply qterm_value|]. cbn [qsum sum_f_R0]. rewrite (Qeq_eqR _ _ (Qred_correct _)), Qreals.Q2R_plus, IH, qterm_value. reflexivity.
Qed.

Lemma pi_close : (Rabs (B2R lit_pi - PI) <= bpow radix2 (-52))%R.
Proof.
  destruct (PI_2_3_7_ineq 10) as [L U]. rewrite <- qsum_value in L, U.
  assert (L2 : (Q2R (7074237752028440 # 9007199254740992) - / 4 * Q2R (1 # 4503599627370496) <= Q2R (qsum (S (2 * 10))))%R).
  { replace (/ 4)%R with (Q2R (1 # 4)) by (unfold Q2R; cbn; lra). rewrite <- Qreals.Q2R_mult, <- Qreals.Q2R_minus. apply Qle_Rle.
    vm_compute. intros H; discriminate. }
  assert (U2 : (Q2R (qsum (2 * 10)) <= Q2R (7074237752028440 # 9007199254740992) + / 4 * Q2R (1 # 4503599627370496))%R).
  { replace (/ 4)%R with (Q2R (1 # 4)) by (unfold Q2R; cbn; lra). rewrite <- Qreals.Q2R_mult, <- Qreals.Q2R_plus. apply Qle_Rle.
    vm_compute. intros H; discriminate. }
  destruct pi_value as [_ V]. rewrite V, !p2n by lia. change (2 ^ (- (-51))) with 2251799813685248. change (2 ^ (- (-52))) with 4503599627370496.
  unfold Q2R in L2 at 1, U2 at 2. unfold Q2R at 1 in L2. unfold Q2R at 2 in U2. cbn [Qnum Qden] in L2, U2.
  apply Rabs_le. lra.
Qed.

(** ** Relative errors *)

Open Scope R_scope.

Definition close (d x y : R) : Prop := x * (1 - d) <= y <= x * (1 + d).

Lemma close_trans : forall d d' x y z, 0 <= x -> 0 <= d <= 1 -> 0 <= d' <= 1 -> close d x y -> close d' y z -> close (d + d' + d * d') x z.
Proof. intros d d' x y z X D D' [A B] [A' B']. split; nra. Qed.

Lemma close_weaken : forall d d' x y, 0 <= x -> d <= d' -> close d x y -> close d' x y.
Proof. intros d d' x y X D [A B]. split; nra. Qed.

Lemma close_scale : forall d c x y, 0 <= c -> close d x y -> close d (c * x) (c * y).
Proof. intros d c x y C [A B]. split; nra. Qed.

Lemma close_inv : forall d x y, 0 < x -> 0 <= d <= / 2 -> close d x y -> close (2 * d) (/ x) (/ y).
Proof.
  intros d x y X D [A B]. assert (Y : 0 < y) by nra. split.
  - apply Rmult_le_reg_r with (x * y); [nra|]. replace (/ x * (1 - 2 * d) * (x * y)) with (y * (1 - 2 * d)) by (field; lra).
    replace (/ y * (x * y)) with x by (field; lra). apply Rle_trans with (x * (1 + d) * (1 - 2 * d)); [nra|]. nra.
  - apply Rmult_le_reg_r with (x * y); [nra|]. replace (/ x * (1 + 2 * d) * (x * y)) with (y * (1 + 2 * d)) by (field; lra).
    replace (/ y * (x * y)) with x by (field; lra). apply Rle_trans with (x * (1 - d) * (1 + 2 * d)); [nra|nra].
Qed.

Lemma close_sqrt : forall d x y, 0 <= x -> 0 <= d <= 1 -> close d x y -> close d (sqrt x) (sqrt y).
Proof.
  intros d x y X D [A B]. assert (Y : 0 <= y) by nra. pose proof (sqrt_pos x) as S. pose proof (sqrt_sqrt x X) as E. split.
  - rewrite <- (sqrt_square (sqrt x * (1 - d))) by nra. apply sqrt_le_1_alt.
    replace (sqrt x * (1 - d) * (sqrt x * (1 - d))) with (x * ((1 - d) * (1 - d))) by (rewrite <- E at 1; ring). nra.
  - rewrite <- (sqrt_square (sqrt x * (1 + d))) by nra. apply sqrt_le_1_alt.
    replace (sqrt x * (1 + d) * (sqrt x * (1 + d))) with (x * ((1 + d) * (1 + d))) by (rewrite <- E at 1; ring). nra.
Qed.

Local Notation E := (/ 4503599627370496).

Lemma E_bpow : bpow radix2 (-52) = E.
Proof. rewrite p2n by lia. reflexivity. Qed.

Lemma close_rnd : forall r, / 1000 <= r -> close E r (rnd r).
Proof.
  intros r H. pose proof (rnd_error r) as R. rewrite (Rabs_pos_eq r) in R by lra. apply Rabs_le_inv in R.
  assert (U : bpow radix2 (-53) = E / 2). { rewrite p2n by lia. change (- (-53))%Z with 53%Z. change (2 ^ 53)%Z with 9007199254740992%Z. lra. }
  assert (T : bpow radix2 (-1075) <= E / 2 * / 1024).
  { rewrite <- U. change (/ 1024) with (bpow radix2 (-10)). rewrite <- bpow_plus. apply bpow_le. lia. }
  rewrite U in R. split; nra.
Qed.

Lemma finite_next : forall r x, / 1000 <= r -> next_to r x -> r <= 1000000 -> close E r (B2R x).
Proof.
  intros r x H [F C] M. assert (VE : Valid_exp (FLT_exp (-1074) 53)) by (apply FLT_exp_valid; reflexivity).
  assert (Bd : forall rr (V : Valid_rnd rr), Rabs (round radix2 (FLT_exp (-1074) 53) rr r - r) < E * Rabs r).
  { intros rr V. rewrite <- E_bpow. apply (relative_error_FLT radix2 (-1074) 53 eq_refl rr).
    rewrite Rabs_pos_eq by lra. apply Rle_trans with (bpow radix2 (-10)); [apply bpow_le; lia|]. rewrite p2n by lia. change (2 ^ (- (-10)))%Z with 1024%Z. lra. }
  assert (D : forall rr (V : Valid_rnd rr), exists y : double, is_finite y = true /\ B2R y = round radix2 (FLT_exp (-1074) 53) rr r).
  { intros rr V. set (v := round radix2 (FLT_exp (-1074) 53) rr r). assert (G : generic_format radix2 (FLT_exp (-1074) 53) v) by (apply generic_format_round; assumption).
    pose proof (binary_normalize_correct 53 1024 precision exponent mode_NE (ZnearestE (scaled_mantissa radix2 (FLT_exp (-1074) 53) v)) (cexp radix2 (FLT_exp (-1074) 53) v) false) as N. cbv zeta in N.
    change (SpecFloat.fexp 53 1024) with (FLT_exp (-1074) 53) in N. change (round_mode mode_NE) with ZnearestE in N.
    change (F2R (Float radix2 (ZnearestE (scaled_mantissa radix2 (FLT_exp (-1074) 53) v)) (cexp radix2 (FLT_exp (-1074) 53) v))) with (rnd v) in N.
    assert (RV : rnd v = v) by (apply round_generic; [apply valid_rnd_N|exact G]). rewrite !RV in N.
    rewrite Rlt_bool_true in N.
    - destruct N as (N1 & N2 & _). eexists. split; [exact N2|exact N1].
    - specialize (Bd rr V). fold v in Bd. rewrite (Rabs_pos_eq r) in Bd by lra. apply Rabs_lt_inv in Bd.
      assert (W : bpow radix2 30 < bpow radix2 1024) by (apply bpow_lt; lia). rewrite (p2 30) in W by lia. change (2 ^ 30)%Z with 1073741824%Z in W.
      apply Rabs_lt. lra. }
  destruct C as [[C1 C2]|[C1 C2]].
  - destruct (D Zfloor _) as (y & Fy & Vy). destruct (round_DN_pt radix2 (FLT_exp (-1074) 53) r) as (_ & P1 & _).
    specialize (C2 y Fy). rewrite Vy in C2. specialize (C2 P1). specialize (Bd Zfloor _). rewrite (Rabs_pos_eq r) in Bd by lra. apply Rabs_lt_inv in Bd.
    split; nra.
  - destruct (D Zceil _) as (y & Fy & Vy). destruct (round_UP_pt radix2 (FLT_exp (-1074) 53) r) as (_ & P1 & _).
    specialize (C2 y Fy). rewrite Vy in C2. specialize (C2 P1). specialize (Bd Zceil _). rewrite (Rabs_pos_eq r) in Bd by lra. apply Rabs_lt_inv in Bd.
    split; nra.
Qed.
