(** * StructureFreqProofs: the rounding of the frequencies of [Structure] *)

From Coq Require Import ZArith Reals List Bool Lia Lra Psatz.
From Flocq Require Import Core Relative Plus_error BinarySingleNaN.
From Verif Require Import Base Double SpecDouble DoubleProofs EnsembleFloatProofs EnsembleFloatMean DoubleError PathFloatProofs
  Structure SpecStructure StructureProofs StructureTop StructureFloat StructureFreq.
Import ListNotations.
Open Scope R_scope.

Local Notation rnd := (round radix2 (FLT_exp (-1074) 53) ZnearestE).
Local Notation u := (bpow radix2 (-53)).

#[local] Instance valid53 : Valid_exp (FLT_exp (-1074) 53).
Proof. apply FLT_exp_valid. reflexivity. Qed.

Lemma u_ro_u : u_ro radix2 53 = u.
Proof. unfold u_ro. apply half_u. Qed.

(** ** Relative errors *)
Lemma rel : forall r, r = 0 \/ bpow radix2 (-1000) <= Rabs r -> exists d, Rabs d <= u / (1 + u) /\ rnd r = r * (1 + d).
Proof.
  intros r [->|H].
  - exists 0. rewrite Rabs_R0, round_0 by apply valid_rnd_N. pose proof u_pos. split; [|ring].
    apply Rmult_le_pos; [lra|]. apply Rlt_le, Rinv_0_lt_compat. lra.
  - rewrite (round_FLT_FLX radix2 (-1074) 53).
    + destruct (relative_error_N_FLX'_ex radix2 53 eq_refl (fun z => negb (Z.even z)) r) as (d & D & E).
      exists d. rewrite u_ro_u in D. split; [exact D|exact E].
    + apply Rle_trans with (2 := H). apply bpow_le. lia.
Qed.

Lemma v_small : u / (1 + u) <= u - u * u + u * u * u /\ u / (1 + u) <= u /\ 0 <= u / (1 + u).
Proof.
  pose proof u_pos. pose proof u_small. assert (I : 0 < / (1 + u)) by (apply Rinv_0_lt_compat; lra).
  assert (E : / (1 + u) * (1 + u) = 1) by (apply Rinv_l; lra). unfold Rdiv. assert (0 < u * u) by (apply Rmult_lt_0_compat; lra).
  assert (0 < u * u * u) by (apply Rmult_lt_0_compat; lra). repeat split.
  - apply Rmult_le_reg_r with (1 + u); [lra|]. rewrite Rmult_assoc, E. nra.
  - apply Rmult_le_reg_r with (1 + u); [lra|]. rewrite Rmult_assoc, E. nra.
  - apply Rmult_le_pos; lra.
Qed.

Lemma two_rel : forall a b, Rabs a <= u / (1 + u) -> Rabs b <= u / (1 + u) -> Rabs ((1 + a) * (1 + b) - 1) <= 2 * u.
Proof.
  intros a b A B. destruct v_small as (V & V' & V0). set (w := u / (1 + u)) in *. pose proof u_pos. pose proof u_small.
  assert (W : 2 * w + w * w <= 2 * u).
  { assert (w * w <= u * u) by (apply Rmult_le_compat; lra). assert (u * u * u <= u * u * / 1024) by (apply Rmult_le_compat_l; nra). nra. }
  replace ((1 + a) * (1 + b) - 1) with (a + b + a * b) by ring. clearbody w.
  assert (Rabs (a * b) <= w * w). { rewrite Rabs_mult. apply Rmult_le_compat; try apply Rabs_pos; assumption. }
  apply Rabs_le_inv in A. apply Rabs_le_inv in B. apply Rabs_le_inv in H1. apply Rabs_le. lra.
Qed.

(** ** Frequencies *)
Lemma index_eq : forall n k, (0 <= k < n)%Z -> freq_index n k = if (2 * k <? n)%Z then k else (k - n)%Z.
Proof.
  intros n k H. unfold freq_index. destruct (2 * k <? n)%Z eqn:E.
  - replace (k <? (n - 1) / 2 + 1)%Z with true by (Z.to_euclidean_division_equations; lia). reflexivity.
  - replace (k <? (n - 1) / 2 + 1)%Z with false by (Z.to_euclidean_division_equations; lia). Z.to_euclidean_division_equations; lia.
Qed.

Lemma index_range : forall n k, (0 <= k < n)%Z -> (- n <= 2 * freq_index n k < n)%Z.
Proof. intros n k H. rewrite index_eq by lia. destruct (2 * k <? n)%Z eqn:E; lia. Qed.

(** The step. *)
Lemma step_value : forall n, (1 <= n <= 2 ^ 51)%Z ->
  is_finite (ddiv done (dz n)) = true /\ B2R (ddiv done (dz n)) = rnd (/ IZR n) /\
  exists d, Rabs d <= u / (1 + u) /\ B2R (ddiv done (dz n)) = / IZR n * (1 + d).
Proof.
  intros n H. destruct (dz_value n) as [F V]; [lia|]. destruct (dz_value 1) as [F1 V1]; [lia|]. fold done in F1, V1.
  assert (N : 1 <= IZR n) by (apply IZR_le; lia). assert (U : IZR n <= bpow radix2 51) by (rewrite <- IZR_pow by lia; apply IZR_le; lia).
  assert (I : 0 < / IZR n <= 1) by (split; [apply Rinv_0_lt_compat; lra|rewrite <- Rinv_1; apply Rinv_le; lra]).
  assert (L : bpow radix2 (-51) <= / IZR n) by (change (-51)%Z with (- (51))%Z; rewrite bpow_opp; apply Rinv_le; lra).
  assert (Q : B2R done / B2R (dz n) = / IZR n) by (rewrite V, V1; unfold Rdiv; ring).
  assert (B : 1 <= bpow radix2 1000) by (change 1 with (bpow radix2 0); apply bpow_le; lia).
  destruct (quotient_of done (dz n)) as [Fi E]; [exact F1|rewrite V; lra|rewrite Q, Rabs_right; lra|]. rewrite Q in E.
  split; [exact Fi|]. split; [exact E|]. rewrite E. apply rel. right. rewrite Rabs_right by lra.
  apply Rle_trans with (2 := L). apply bpow_le. lia.
Qed.

Lemma freq_value : forall n k, (1 <= n <= 2 ^ 51)%Z -> (0 <= k < n)%Z ->
  is_finite (ffreq n k) = true /\ B2R (ffreq n k) = rnd (IZR (freq_index n k) * B2R (ddiv done (dz n))) /\
  exists d, Rabs d <= 2 * u /\ B2R (ffreq n k) = IZR (freq_index n k) / IZR n * (1 + d).
Proof.
  intros n k Hn Hk. pose proof (index_range n k Hk) as R. set (i := freq_index n k) in *.
  destruct (step_value n Hn) as (F & _ & d & D & E). destruct (dz_value i) as [Fi V]; [lia|].
  assert (N : 1 <= IZR n) by (apply IZR_le; lia). assert (U : IZR n <= bpow radix2 51) by (rewrite <- IZR_pow by lia; apply IZR_le; lia).
  assert (I : 0 < / IZR n <= 1) by (split; [apply Rinv_0_lt_compat; lra|rewrite <- Rinv_1; apply Rinv_le; lra]).
  assert (L : bpow radix2 (-51) <= / IZR n) by (change (-51)%Z with (- (51))%Z; rewrite bpow_opp; apply Rinv_le; lra).
  destruct v_small as (_ & V1 & _). pose proof u_pos. pose proof u_small. assert (D' := D). apply Rabs_le_inv in D'.
  assert (A : Rabs (IZR i) <= bpow radix2 51). { rewrite <- abs_IZR. apply Rle_trans with (2 := U). apply IZR_le. lia. }
  assert (S : 0 < B2R (ddiv done (dz n)) <= 2). { rewrite E. split; [apply Rmult_lt_0_compat; lra|]. nra. }
  destruct (product_of (dz i) (ddiv done (dz n)) Fi F) as [Ff Ef].
  { rewrite V, Rabs_mult, (Rabs_right (B2R (ddiv done (dz n)))) by lra. apply Rle_trans with (bpow radix2 51 * bpow radix2 1).
    - apply Rmult_le_compat; try apply Rabs_pos; try lra. change (bpow radix2 1) with 2. lra.
    - rewrite <- bpow_plus. apply bpow_le. lia. }
  rewrite V in Ef. split; [exact Ff|]. split; [exact Ef|].
  destruct (rel (IZR i * B2R (ddiv done (dz n)))) as (d' & D2 & E2).
  { destruct (Z.eq_dec i 0) as [->|NZ]; [left; ring|right]. rewrite Rabs_mult, (Rabs_right (B2R (ddiv done (dz n)))) by lra.
    assert (1 <= Rabs (IZR i)) by (rewrite <- abs_IZR; apply IZR_le; lia). apply Rle_trans with (1 * bpow radix2 (-52)).
    - rewrite Rmult_1_l. apply bpow_le. lia.
    - apply Rmult_le_compat; try lra; [apply bpow_ge_0|]. rewrite E. replace (bpow radix2 (-52)) with (bpow radix2 (-51) * / 2).
      + apply Rmult_le_compat; try lra. apply bpow_ge_0.
      + change (/ 2) with (bpow radix2 (-1)). rewrite <- bpow_plus. reflexivity. }
  exists ((1 + d) * (1 + d') - 1). split; [apply two_rel; assumption|].
  unfold ffreq. fold i. rewrite Ef, E2, E. unfold Rdiv. ring.
Qed.

(** Opposite frequencies are opposite to the last bit. *)
Lemma index_opposite : forall n k, (0 <= k < n)%Z -> ~ nyquist n k -> freq_index n (opposite n k) = (- freq_index n k)%Z.
Proof.
  intros n k H Q. unfold nyquist in Q. unfold opposite. destruct (Z.eq_dec k 0) as [->|].
  - change (- 0)%Z with 0%Z. rewrite Z.mod_0_l by lia. rewrite index_eq by lia. replace (2 * 0 <? n)%Z with true by lia. reflexivity.
  - rewrite <- (Z_mod_plus_full _ 1), Z.mod_small by lia. rewrite !index_eq by lia.
    destruct (2 * k <? n)%Z eqn:E.
    + replace (2 * (- k + 1 * n) <? n)%Z with false by lia. lia.
    + replace (2 * (- k + 1 * n) <? n)%Z with true by lia. lia.
Qed.

Lemma freq_opposite : forall n k, (1 <= n <= 2 ^ 51)%Z -> (0 <= k < n)%Z -> ~ nyquist n k ->
  B2R (ffreq n (opposite n k)) = - B2R (ffreq n k).
Proof.
  intros n k Hn Hk Q. assert (O : (0 <= opposite n k < n)%Z) by (apply Z.mod_pos_bound; lia).
  destruct (freq_value n k Hn Hk) as (_ & E & _). destruct (freq_value n _ Hn O) as (_ & E' & _).
  rewrite E, E', index_opposite, opp_IZR by assumption. rewrite <- round_NE_opp. f_equal. ring.
Qed.

(** The order is that of the exact frequencies. *)
Lemma freq_lt : forall n k l, (1 <= n <= 2 ^ 51)%Z -> (0 <= k < n)%Z -> (0 <= l < n)%Z ->
  (freq_index n k < freq_index n l)%Z -> B2R (ffreq n k) < B2R (ffreq n l).
Proof.
  intros n k l Hn Hk Hl L. destruct (freq_value n k Hn Hk) as (_ & _ & d & D & E). destruct (freq_value n l Hn Hl) as (_ & _ & d' & D' & E').
  rewrite E, E'. pose proof (index_range n k Hk) as R. pose proof (index_range n l Hl) as R'.
  set (i := freq_index n k) in *. set (j := freq_index n l) in *. clearbody i j.
  assert (N : 1 <= IZR n) by (apply IZR_le; lia). assert (U : IZR n <= bpow radix2 51) by (rewrite <- IZR_pow by lia; apply IZR_le; lia).
  assert (I : 0 < / IZR n) by (apply Rinv_0_lt_compat; lra). unfold Rdiv.
  assert (G : IZR i * (1 + d) < IZR j * (1 + d')).
  { assert (P : u * IZR n <= / 4).
    { apply Rle_trans with (u * bpow radix2 51); [apply Rmult_le_compat_l; [apply bpow_ge_0|exact U]|].
      rewrite <- bpow_plus. change (-53 + 51)%Z with (-2)%Z. cbn. lra. }
    assert (X : forall z e, (- n <= 2 * z < n)%Z -> Rabs e <= 2 * u -> Rabs (IZR z * e) <= / 4).
    { intros z e Z1 Z2. rewrite Rabs_mult. apply Rle_trans with (IZR n / 2 * (2 * u)); [|lra].
      apply Rmult_le_compat; try apply Rabs_pos; [|exact Z2]. rewrite <- abs_IZR. assert (2 * IZR (Z.abs z) <= IZR n); [|lra].
      rewrite <- mult_IZR. apply IZR_le. lia. }
    pose proof (X i d R D) as X1. pose proof (X j d' R' D') as X2. apply Rabs_le_inv in X1. apply Rabs_le_inv in X2.
    assert (IZR i + 1 <= IZR j) by (rewrite <- plus_IZR; apply IZR_le; lia). lra. }
  apply Rmult_lt_reg_r with (IZR n); [lra|].
  replace (IZR i * / IZR n * (1 + d) * IZR n) with (IZR i * (1 + d)) by (field; lra).
  replace (IZR j * / IZR n * (1 + d') * IZR n) with (IZR j * (1 + d')) by (field; lra). exact G.
Qed.

(** ** Half a wave per pixel is never exceeded *)
Lemma half_format : generic_format radix2 (FLT_exp (-1074) 53) (/ 2).
Proof. change (/ 2) with (bpow radix2 (-1)). apply generic_format_bpow. cbn. lia. Qed.

Lemma half_round : forall r, r < / 2 * (1 + u) -> rnd r <= / 2.
Proof.
  intros r H. apply (round_N_le_midp radix2 (FLT_exp (-1074) 53) (fun z => negb (Z.even z))); [apply half_format|].
  rewrite succ_eq_pos by lra. assert (ulp radix2 (FLT_exp (-1074) 53) (/ 2) = u); [|lra].
  change (/ 2) with (bpow radix2 (-1)). rewrite ulp_bpow. reflexivity.
Qed.

Lemma freq_half : forall n k, (1 <= n <= 2 ^ 51)%Z -> (0 <= k < n)%Z -> Rabs (B2R (ffreq n k)) <= / 2.
Proof.
  intros n k Hn Hk. destruct (freq_value n k Hn Hk) as (_ & E & _). destruct (step_value n Hn) as (_ & _ & d & D & S). rewrite E.
  pose proof (index_range n k Hk) as R. set (i := freq_index n k) in *. clearbody i.
  assert (N : 1 <= IZR n) by (apply IZR_le; lia). assert (I : 0 < / IZR n) by (apply Rinv_0_lt_compat; lra).
  assert (J : / IZR n * IZR n = 1) by (apply Rinv_l; lra). pose proof u_pos. pose proof u_small.
  assert (W : u / (1 + u) < u). { destruct v_small as (V & _). assert (0 < u * u) by (apply Rmult_lt_0_compat; lra). nra. }
  apply Rabs_le_inv in D. assert (A : Rabs (IZR i * B2R (ddiv done (dz n))) < / 2 * (1 + u)).
  { rewrite S, Rabs_mult, (Rabs_right (/ IZR n * (1 + d))) by (apply Rle_ge, Rmult_le_pos; lra).
    assert (2 * Rabs (IZR i) <= IZR n) by (rewrite <- abs_IZR, <- mult_IZR; apply IZR_le; lia).
    apply Rle_lt_trans with (IZR n / 2 * (/ IZR n * (1 + d))).
    - apply Rmult_le_compat_r; [apply Rmult_le_pos; lra|lra].
    - replace (IZR n / 2 * (/ IZR n * (1 + d))) with (/ 2 * (1 + d)) by (field; lra). lra. }
  apply Rabs_def2 in A. apply Rabs_le. split; [|apply half_round; lra].
  rewrite <- (Ropp_involutive (IZR i * _)), round_NE_opp. apply Ropp_le_contravar, half_round. lra.
Qed.

(** Sizes that are powers of two: exact. *)
Lemma freq_power : forall e k, (0 <= e <= 51)%Z -> (0 <= k < 2 ^ e)%Z ->
  B2R (ffreq (2 ^ e) k) = IZR (freq_index (2 ^ e) k) / IZR (2 ^ e).
Proof.
  intros e k He Hk. assert (Hn : (1 <= 2 ^ e <= 2 ^ 51)%Z) by (split; [lia|apply Z.pow_le_mono_r; lia]).
  destruct (freq_value _ k Hn Hk) as (_ & E & _). destruct (step_value _ Hn) as (_ & S & _). rewrite E, S.
  pose proof (index_range _ k Hk) as R. set (i := freq_index (2 ^ e) k) in *. clearbody i.
  rewrite IZR_pow by lia. rewrite <- bpow_opp. rewrite (round_generic _ _ _ (bpow radix2 (- e))); [|apply generic_format_bpow; unfold FLT_exp; lia].
  unfold Rdiv. rewrite <- bpow_opp. apply round_generic; [apply valid_rnd_N|].
  apply generic_format_FLT. exists (Defs.Float radix2 i (- e)); cbn [Fnum Fexp]; [reflexivity| |lia].
  apply Z.le_lt_trans with (2 ^ 51)%Z; [lia|reflexivity].
Qed.

(** ** Square roots of squares *)
Lemma root_square : forall a : double, B2R a = 0 \/ bpow radix2 (-400) <= B2R a -> rnd (sqrt (rnd (B2R a * B2R a))) = B2R a.
Proof.
  intros a' H. pose proof (generic_format_B2R 53 1024 a') as Fa. change (SpecFloat.fexp 53 1024) with (FLT_exp (-1074) 53) in Fa.
  set (a := B2R a') in *. clearbody a. clear a'. destruct H as [->|H].
  - rewrite Rmult_0_l, round_0 by apply valid_rnd_N. rewrite sqrt_0. apply round_0, valid_rnd_N.
  - pose proof (bpow_gt_0 radix2 (-400)) as B0. assert (A0 : 0 < a) by lra.
    destruct (rel (a * a)) as (d & D & E).
    { right. rewrite Rabs_right by nra. apply Rle_trans with (bpow radix2 (-400) * bpow radix2 (-400)); [rewrite <- bpow_plus; apply bpow_le; lia|].
      apply Rmult_le_compat; lra. }
    destruct (mag radix2 a) as (e & M0) eqn:ME. assert (M := M0 ltac:(lra)). rewrite Rabs_right in M by lra.
    assert (L : (-400 < e)%Z). { apply (lt_bpow radix2). lra. }
    assert (MA : mag_val radix2 a (mag radix2 a) = e) by (rewrite ME; reflexivity).
    assert (UL : ulp radix2 (FLT_exp (-1074) 53) a = bpow radix2 e * bpow radix2 (-53)).
    { rewrite ulp_neq_0 by lra. unfold cexp. rewrite MA, <- bpow_plus. f_equal. unfold FLT_exp. lia. }
    pose proof u_pos. pose proof u_small. pose proof v_small as (V1 & V2 & V3). apply Rabs_le_inv in D.
    assert (U2 : 0 < u * u) by (apply Rmult_lt_0_compat; lra). assert (U3 : u * u * u <= u * u * / 1024) by (apply Rmult_le_compat_l; lra).
    assert (SE : sqrt (a * a * (1 + d)) = a * sqrt (1 + d)) by (rewrite sqrt_mult by nra; rewrite sqrt_square by lra; reflexivity).
    assert (S0 : 0 < sqrt (1 + d)) by (apply sqrt_lt_R0; lra).
    assert (S2 : sqrt (1 + d) * sqrt (1 + d) = 1 + d) by (apply sqrt_sqrt; lra). set (s := sqrt (1 + d)) in *.
    rewrite E, SE. apply Rle_antisym.
    + apply (round_N_le_midp radix2 (FLT_exp (-1074) 53) (fun z => negb (Z.even z))); [exact Fa|].
      rewrite succ_eq_pos, UL by lra. assert (s < 1 + u / 2) by nra. assert (a * s < a * (1 + u / 2)) by (apply Rmult_lt_compat_l; lra).
      assert (a * u < bpow radix2 e * u) by (apply Rmult_lt_compat_r; lra). lra.
    + destruct (Req_dec a (bpow radix2 (e - 1))) as [P|P].
      * assert (d = 0) as ->.
        { assert (Q : rnd (a * a) = a * a). { apply round_generic; [apply valid_rnd_N|]. rewrite P, <- bpow_plus. apply generic_format_bpow. unfold FLT_exp. lia. }
          rewrite Q in E. assert (0 < a * a) by nra. nra. }
        unfold s. rewrite Rplus_0_r, sqrt_1, Rmult_1_r. rewrite (round_generic _ _ _ a Fa). lra.
      * apply (round_N_ge_midp radix2 (FLT_exp (-1074) 53) (fun z => negb (Z.even z))); [exact Fa|].
        rewrite pred_eq_pos by lra. unfold pred_pos. rewrite MA. rewrite Req_bool_false by exact P. rewrite UL.
        assert (1 - u / 2 < s) by nra. assert (a * (1 - u / 2) < a * s) by (apply Rmult_lt_compat_l; lra).
        assert (a * u < bpow radix2 e * u) by (apply Rmult_lt_compat_r; lra). lra.
Qed.

(** ** Norms *)
Lemma freq_nonneg : forall n k, (1 <= n <= 2 ^ 51)%Z -> (0 <= k)%Z -> (2 * k < n)%Z ->
  is_finite (ffreq n k) = true /\ 0 <= B2R (ffreq n k) <= / 2 /\ (B2R (ffreq n k) = 0 \/ bpow radix2 (-400) <= B2R (ffreq n k)) /\
  (k <> 0%Z -> 0 < B2R (ffreq n k)) /\ (k = 0%Z -> B2R (ffreq n k) = 0) /\
  exists d, Rabs d <= 2 * u /\ B2R (ffreq n k) = IZR k / IZR n * (1 + d).
Proof.
  intros n k Hn H0 H. assert (Hk : (0 <= k < n)%Z) by lia. pose proof (freq_half n k Hn Hk) as HB.
  destruct (freq_value n k Hn Hk) as (F & _ & d & D & E). rewrite index_eq in E by lia. replace (2 * k <? n)%Z with true in E by lia.
  assert (N : 1 <= IZR n) by (apply IZR_le; lia). assert (U : IZR n <= bpow radix2 51) by (rewrite <- IZR_pow by lia; apply IZR_le; lia).
  assert (L : bpow radix2 (-51) <= / IZR n) by (change (-51)%Z with (- (51))%Z; rewrite bpow_opp; apply Rinv_le; lra).
  assert (D' := D). apply Rabs_le_inv in D'. pose proof u_small. pose proof u_pos.
  assert (Z0 : k = 0%Z -> B2R (ffreq n k) = 0) by (intros ->; rewrite E; unfold Rdiv; ring).
  assert (ZP : k <> 0%Z -> bpow radix2 (-52) <= B2R (ffreq n k)).
  { intros K. rewrite E. assert (1 <= IZR k) by (apply IZR_le; lia). replace (bpow radix2 (-52)) with (1 * bpow radix2 (-51) * / 2).
    - unfold Rdiv. apply Rmult_le_compat; try lra; [apply Rmult_le_pos; [lra|apply bpow_ge_0]|]. apply Rmult_le_compat; try lra. apply bpow_ge_0.
    - change (/ 2) with (bpow radix2 (-1)). rewrite Rmult_1_l, <- bpow_plus. reflexivity. }
  pose proof (bpow_gt_0 radix2 (-52)). assert (P : 0 <= B2R (ffreq n k)) by (destruct (Z.eq_dec k 0) as [K|K]; [rewrite (Z0 K); lra|specialize (ZP K); lra]).
  rewrite Rabs_right in HB by lra. split; [exact F|]. split; [lra|]. split.
  - destruct (Z.eq_dec k 0) as [K|K]; [left; exact (Z0 K)|right]. apply Rle_trans with (2 := ZP K). apply bpow_le. lia.
  - split; [intros K; specialize (ZP K); lra|]. split; [exact Z0|]. exists d. auto.
Qed.

Definition norm_of (a b : R) : R := rnd (sqrt (rnd (rnd (a * a) + rnd (b * b)))).

Lemma norm_value : forall x y : double, is_finite x = true -> is_finite y = true -> 0 <= B2R x <= / 2 -> 0 <= B2R y <= / 2 ->
  is_finite (np_sqrt (dplus (np_square x) (np_square y))) = true /\
  B2R (np_sqrt (dplus (np_square x) (np_square y))) = norm_of (B2R x) (B2R y).
Proof.
  intros x y Fx Fy X Y. assert (BIG : 1 <= bpow radix2 1000) by (change 1 with (bpow radix2 0); apply bpow_le; lia).
  assert (Q : forall z : double, is_finite z = true -> 0 <= B2R z <= / 2 -> is_finite (np_square z) = true /\ B2R (np_square z) = rnd (B2R z * B2R z) /\ 0 <= rnd (B2R z * B2R z) <= / 2).
  { intros z Fz Z. assert (ZZ : 0 <= B2R z * B2R z <= / 2) by nra. destruct (product_of z z Fz Fz) as [Fp Ep]; [rewrite Rabs_right; lra|].
    repeat split; auto; [apply rnd_nonneg; lra|]. rewrite <- (round_generic radix2 (FLT_exp (-1074) 53) ZnearestE (/ 2) half_format). apply rnd_le. lra. }
  destruct (Q x Fx X) as (F1 & E1 & B1). destruct (Q y Fy Y) as (F2 & E2 & B2).
  destruct (sum_of (np_square x) (np_square y) F1 F2) as [F3 E3]; [rewrite E1, E2, Rabs_right; lra|]. rewrite E1, E2 in E3.
  pose proof (Bsqrt_correct 53 1024 precision exponent mode_NE (dplus (np_square x) (np_square y))) as (V & Fin & _).
  change (SpecFloat.fexp 53 1024) with (FLT_exp (-1074) 53) in V. change (round_mode mode_NE) with ZnearestE in V. rewrite E3 in V.
  split; [|exact V]. unfold np_sqrt. rewrite Fin. assert (0 <= B2R (dplus (np_square x) (np_square y))) by (rewrite E3; apply rnd_nonneg; lra).
  destruct (dplus (np_square x) (np_square y)) as [s|s| |[|] m e HH]; try discriminate; try reflexivity.
  exfalso. assert ((B2R (B754_finite true m e HH : double) < 0)%R); [|lra]. cbn [B2R]. apply F2R_lt_0. cbn. lia.
Qed.

Lemma norm_mono : forall a b a' b', 0 <= a <= a' -> 0 <= b <= b' -> norm_of a b <= norm_of a' b'.
Proof.
  intros a b a' b' A B. unfold norm_of. apply rnd_le, sqrt_le_1_alt, rnd_le. apply Rplus_le_compat; apply rnd_le; apply Rmult_le_compat; lra.
Qed.
Lemma norm_comm : forall a b, norm_of a b = norm_of b a.
Proof. intros a b. unfold norm_of. rewrite (Rplus_comm (rnd (a * a))). reflexivity. Qed.

Lemma norm_axis : forall a : double, B2R a = 0 \/ bpow radix2 (-400) <= B2R a -> norm_of (B2R a) 0 = B2R a.
Proof.
  intros a H. unfold norm_of. rewrite Rmult_0_r, (round_0 _ _ ZnearestE), Rplus_0_r.
  rewrite (round_generic _ _ ZnearestE (rnd (B2R a * B2R a))); [apply root_square; exact H|].
  apply generic_format_round; [apply valid53|apply valid_rnd_N].
Qed.

(** The error of the norm. *)
Lemma square_error : forall a x d, 0 <= x -> (a = 0 \/ bpow radix2 (-400) <= a) -> Rabs d <= 2 * u -> a = x * (1 + d) ->
  (x * x) * (1 - 6 * u) <= rnd (a * a) <= (x * x) * (1 + 6 * u).
Proof.
  intros a x d X A D E. destruct (rel (a * a)) as (e & He & Ee).
  { destruct A as [->|A]; [left; ring|right]. pose proof (bpow_gt_0 radix2 (-400)). rewrite Rabs_right by nra.
    apply Rle_trans with (bpow radix2 (-400) * bpow radix2 (-400)); [rewrite <- bpow_plus; apply bpow_le; lia|]. apply Rmult_le_compat; lra. }
  rewrite Ee, E. replace (x * (1 + d) * (x * (1 + d)) * (1 + e)) with (x * x * ((1 + d) * (1 + d) * (1 + e))) by ring.
  destruct v_small as (_ & V & _). pose proof u_pos. pose proof u_small. apply Rabs_le_inv in D. apply Rabs_le_inv in He.
  assert (XX : 0 <= x * x) by nra. assert (0 <= u * u <= u * / 1024) by nra.
  assert (DD : 1 - 4 * u <= (1 + d) * (1 + d) <= 1 + 4 * u + 4 * (u * u)) by nra.
  split; apply Rmult_le_compat_l; auto.
  - apply Rle_trans with ((1 - 4 * u) * (1 - u)); [nra|]. apply Rmult_le_compat; lra.
  - apply Rle_trans with ((1 + 4 * u + 4 * (u * u)) * (1 + u)); [apply Rmult_le_compat; lra|]. nra.
Qed.

Lemma norm_error : forall a b x y d e, 0 <= x -> 0 <= y ->
  (a = 0 \/ bpow radix2 (-400) <= a) -> (b = 0 \/ bpow radix2 (-400) <= b) -> Rabs d <= 2 * u -> Rabs e <= 2 * u ->
  a = x * (1 + d) -> b = y * (1 + e) ->
  Rabs (norm_of a b - sqrt (x ^ 2 + y ^ 2)) <= 8 * u * sqrt (x ^ 2 + y ^ 2).
Proof.
  intros a b x y d e X Y A B D E Ea Eb. pose proof (square_error a x d X A D Ea) as P. pose proof (square_error b y e Y B E Eb) as Q.
  assert (BP : forall z, z = 0 \/ bpow radix2 (-400) <= z -> rnd (z * z) = 0 \/ bpow radix2 (-800) <= rnd (z * z)).
  { intros z [->|Z]; [left; rewrite Rmult_0_l; apply round_0, valid_rnd_N|right].
    rewrite <- (round_generic radix2 (FLT_exp (-1074) 53) ZnearestE (bpow radix2 (-800))) by (apply generic_format_bpow; cbn; lia).
    apply rnd_le. change (-800)%Z with (-400 + -400)%Z. rewrite bpow_plus. pose proof (bpow_gt_0 radix2 (-400)). apply Rmult_le_compat; lra. }
  pose proof (BP a A) as PA. pose proof (BP b B) as PB. pose proof (bpow_gt_0 radix2 (-800)) as B8.
  unfold norm_of. set (p := rnd (a * a)) in *. set (q := rnd (b * b)) in *.
  destruct (rel (p + q)) as (f & Hf & Ef).
  { destruct PA as [->|PA], PB as [->|PB]; [left; ring|right..]; rewrite Rabs_right by lra; apply Rle_trans with (bpow radix2 (-800)); try lra; apply bpow_le; lia. }
  pose proof u_pos. pose proof u_small. destruct v_small as (_ & V & _). apply Rabs_le_inv in Hf.
  set (t := x ^ 2 + y ^ 2). assert (T : x * x + y * y = t) by (unfold t; ring). assert (T0 : 0 <= t) by (rewrite <- T; nra).
  assert (W : t * (1 - 8 * u) <= rnd (p + q) <= t * (1 + 8 * u)).
  { rewrite Ef. assert (H1 : t * (1 - 6 * u) <= p + q <= t * (1 + 6 * u)) by (rewrite <- T; lra). assert (0 <= p + q) by nra. split.
    - apply Rle_trans with (t * (1 - 6 * u) * (1 - u)); [rewrite Rmult_assoc; apply Rmult_le_compat_l; nra|]. apply Rmult_le_compat; nra.
    - apply Rle_trans with (t * (1 + 6 * u) * (1 + u)); [apply Rmult_le_compat; nra|]. rewrite Rmult_assoc. apply Rmult_le_compat_l; nra. }
  set (r := rnd (p + q)) in *. assert (R0 : 0 <= r) by nra.
  assert (S0 : 0 <= sqrt t) by apply sqrt_pos.
  assert (W2 : sqrt t * (1 - 5 * u) <= sqrt r <= sqrt t * (1 + 4 * u)).
  { split.
    - rewrite <- (sqrt_square (1 - 5 * u)) by lra. rewrite <- sqrt_mult by nra. apply sqrt_le_1_alt. apply Rle_trans with (2 := proj1 W). apply Rmult_le_compat_l; nra.
    - rewrite <- (sqrt_square (1 + 4 * u)) by lra. rewrite <- sqrt_mult by nra. apply sqrt_le_1_alt. apply Rle_trans with (1 := proj2 W). apply Rmult_le_compat_l; nra. }
  destruct (rel (sqrt r)) as (g & Hg & Eg).
  { destruct (Req_dec r 0) as [->|NZ]; [left; apply sqrt_0|right]. rewrite Rabs_right by (apply Rle_ge, sqrt_pos).
    assert (PQ : p + q <> 0). { intros Z. apply NZ. unfold r. rewrite Z. apply round_0, valid_rnd_N. }
    assert (G : bpow radix2 (-800) <= r).
    { unfold r. rewrite <- (round_generic radix2 (FLT_exp (-1074) 53) ZnearestE (bpow radix2 (-800))) by (apply generic_format_bpow; cbn; lia).
      apply rnd_le. destruct PA as [PA|PA], PB as [PB|PB]; lra. }
    apply Rle_trans with (bpow radix2 (-400)); [apply bpow_le; lia|]. rewrite <- (sqrt_square (bpow radix2 (-400))) by apply bpow_ge_0.
    apply sqrt_le_1_alt. rewrite <- bpow_plus. exact G. }
  rewrite Eg. apply Rabs_le_inv in Hg. assert (0 <= sqrt r) by apply sqrt_pos. apply Rabs_le.
  assert (sqrt t * (1 - 5 * u) * (1 - u) <= sqrt r * (1 + g)) by (apply Rmult_le_compat; nra).
  assert (sqrt r * (1 + g) <= sqrt t * (1 + 4 * u) * (1 + u)) by (apply Rmult_le_compat; nra).
  assert (sqrt t * (1 - 8 * u) <= sqrt t * ((1 - 5 * u) * (1 - u))) by (apply Rmult_le_compat_l; nra).
  assert (sqrt t * ((1 + 4 * u) * (1 + u)) <= sqrt t * (1 + 8 * u)) by (apply Rmult_le_compat_l; nra). lra.
Qed.
