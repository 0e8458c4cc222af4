(** * StructureFreqTop: the frequencies of [Structure], as a user sees them *)

From Coq Require Import ZArith Reals List Bool Lia Lra Psatz.
From Flocq Require Import Core BinarySingleNaN.
From Verif Require Import Base Double DoubleError Structure SpecStructure StructureProofs StructureTop StructureFloat StructureFreq SpecFreq
  StructureFreqProofs.
Import ListNotations.
Open Scope R_scope.

Local Notation u := (bpow radix2 (-53)).

Lemma wave_index : forall n k, (0 <= k < n)%Z -> wave n k = IZR (freq_index n k) / IZR n.
Proof. intros n k H. unfold wave. rewrite index_eq by lia. destruct (2 * k <? n)%Z; [reflexivity|]. rewrite minus_IZR. reflexivity. Qed.

Lemma wave_lt : forall n k l, (0 <= k < n)%Z -> (0 <= l < n)%Z -> wave n k < wave n l -> (freq_index n k < freq_index n l)%Z.
Proof.
  intros n k l Hk Hl. rewrite !wave_index by assumption. intros H. apply lt_IZR.
  apply Rmult_lt_reg_r with (/ IZR n); [apply Rinv_0_lt_compat, IZR_lt; lia|exact H].
Qed.

Lemma near_wave : forall n k, size n -> (0 <= k < n)%Z -> within (bpow radix2 (-52)) (wave n k) (ffreq n k).
Proof.
  intros n k Hn Hk. destruct (freq_value n k Hn Hk) as (F & _ & d & D & E). split; [exact F|].
  rewrite wave_index by exact Hk. set (w := IZR (freq_index n k) / IZR n) in *. rewrite E.
  replace (w * (1 + d) - w) with (d * w) by ring. rewrite Rabs_mult, eps_u. apply Rmult_le_compat_r; [apply Rabs_pos|exact D].
Qed.

(** ** [q] *)
Lemma done_pos : forall x y : double, B2R x = 0 -> Bsign x = false -> is_finite x = true -> is_finite y = true -> 0 < B2R y -> dtimes x y = B754_zero false.
Proof.
  intros x y Hx S Fx Fy Hy. destruct x as [s|s| |s m e H]; try discriminate.
  - cbn in S. subst s. destruct y as [s|s| |[|] m e HH]; try discriminate; cbn [B2R] in Hy; [lra| |reflexivity].
    exfalso. assert (F2R (Defs.Float radix2 (cond_Zopp true (Z.pos m)) e) < 0) by (apply F2R_lt_0; cbn; lia). lra.
  - exfalso. cbn [B2R] in Hx. apply eq_0_F2R in Hx. destruct s; discriminate.
Qed.

Lemma all_frequencies : forall n, size n -> frequencies n (ffreq n).
Proof.
  intros n Hn. split; [intros k Hk; apply near_wave; assumption|]. split; [|split; [|split; [|split]]].
  - destruct (step_value n Hn) as (F & _ & d & D & E).
    assert (Z : freq_index n 0 = 0%Z). { unfold size in Hn. rewrite index_eq by lia. destruct (2 * 0 <? n)%Z eqn:Q; lia. }
    unfold ffreq. rewrite Z. apply done_pos; try reflexivity; [exact F|].
    rewrite E. destruct v_small as (_ & V & _). pose proof u_small. apply Rabs_le_inv in D.
    apply Rmult_lt_0_compat; [apply Rinv_0_lt_compat, IZR_lt; unfold size in Hn; lia|lra].
  - intros k Hk Q. apply freq_opposite; assumption.
  - intros k l Hk Hl L. apply freq_lt; try assumption. apply wave_lt; assumption.
  - intros k Hk. apply freq_half; assumption.
  - intros e E k Hk. rewrite wave_index by exact Hk. assert (He : (0 <= e)%Z). { destruct (Z.le_gt_cases 0 e); [assumption|]. rewrite Z.pow_neg_r in E by lia. unfold size in Hn. lia. }
    assert (He' : (e <= 51)%Z). { unfold size in Hn. rewrite E in Hn. apply (Z.pow_le_mono_r_iff 2); lia. }
    subst n. apply freq_power; [lia|exact Hk].
Qed.

Lemma fq_1 : forall st n axis, fst_shape st = [n] -> size n -> exists f, fq st axis = Ok f /\ frequencies n (fun k => f [k]).
Proof. intros st n axis H Hn. unfold fq. rewrite H. eexists. split; [reflexivity|]. cbn [nth]. apply (all_frequencies n Hn). Qed.

Lemma fq_2 : forall st n m, fst_shape st = [n; m] -> size n -> size m ->
  exists f g, fq st (Some 0%Z) = Ok f /\ fq st (Some 1%Z) = Ok g /\
    (forall j, frequencies n (fun i => f [i; j])) /\ (forall i, frequencies m (fun j => g [i; j])).
Proof.
  intros st n m H Hn Hm. unfold fq. rewrite H. eexists _, _. split; [reflexivity|]. split; [reflexivity|]. cbn [nth].
  split; intros _; apply all_frequencies; assumption.
Qed.

(** ** [qnorm] *)
Lemma stop_spec : forall n, (1 <= n)%Z -> forall k, (0 <= k)%Z -> (k < Z.min n (stop_of n) <-> 2 * k < n)%Z.
Proof. intros n Hn k Hk. destruct (start_stop n Hn) as (A & B & C & D). specialize (D k). lia. Qed.

Lemma fqnorm_1 : forall st n, fst_shape st = [n] -> size n ->
  exists e f q, fqnorm st = Ok ([e], f) /\ fq st None = Ok q /\ (forall k, (0 <= k)%Z -> (k < e <-> 2 * k < n)%Z) /\
    forall k, (0 <= k < e)%Z -> f [k] = q [k].
Proof.
  intros st n H Hn. unfold fqnorm, fq. rewrite H. eexists _, _, _. split; [reflexivity|]. split; [reflexivity|].
  pose proof (stop_spec n ltac:(unfold size in Hn; lia)) as S. split; [exact S|]. intros k Hk. cbn [nth]. specialize (S k ltac:(lia)).
  destruct (freq_nonneg n k Hn ltac:(lia) ltac:(lia)) as (F & P & _ & NZ & Z0 & _).
  destruct (Z.eq_dec k 0) as [->|K].
  - destruct (all_frequencies n Hn) as (_ & -> & _). reflexivity.
  - specialize (NZ K). destruct (ffreq n k) as [s|s| |[|] m e HH]; try discriminate; try reflexivity; cbn [B2R] in NZ; [lra|].
    exfalso. assert (F2R (Defs.Float radix2 (cond_Zopp true (Z.pos m)) e) < 0) by (apply F2R_lt_0; cbn; lia). lra.
Qed.

Lemma fqnorm_2 : forall st n m, fst_shape st = [n; m] -> size n -> size m ->
  exists e e' p f g, fqnorm st = Ok ([e; e'], p) /\ fq st (Some 0%Z) = Ok f /\ fq st (Some 1%Z) = Ok g /\
    (forall k, (0 <= k)%Z -> (k < e <-> 2 * k < n)%Z) /\ (forall k, (0 <= k)%Z -> (k < e' <-> 2 * k < m)%Z) /\
    norms n m e e' (fun i j => p [i; j]) /\
    (forall i, (0 <= i < e)%Z -> B2R (p [i; 0%Z]) = B2R (f [i; 0%Z])) /\
    (forall j, (0 <= j < e')%Z -> B2R (p [0%Z; j]) = B2R (g [0%Z; j])) /\
    (n = m -> forall i j, (0 <= i < e)%Z -> (0 <= j < e)%Z -> B2R (p [i; j]) = B2R (p [j; i])).
Proof.
  intros st n m H Hn Hm. unfold fqnorm, fq. rewrite H. do 5 eexists. split; [reflexivity|]. split; [reflexivity|]. split; [reflexivity|].
  pose proof (stop_spec n ltac:(unfold size in Hn; lia)) as Sn. pose proof (stop_spec m ltac:(unfold size in Hm; lia)) as Sm.
  split; [exact Sn|]. split; [exact Sm|]. cbn [nth].
  assert (V : forall i j, (0 <= i)%Z -> (0 <= j)%Z -> (2 * i < n)%Z -> (2 * j < m)%Z ->
    is_finite (np_sqrt (dplus (np_square (ffreq n i)) (np_square (ffreq m j)))) = true /\
    B2R (np_sqrt (dplus (np_square (ffreq n i)) (np_square (ffreq m j)))) = norm_of (B2R (ffreq n i)) (B2R (ffreq m j))).
  { intros i j I J I2 J2. destruct (freq_nonneg n i Hn I I2) as (F & P & _). destruct (freq_nonneg m j Hm J J2) as (F' & P' & _). apply norm_value; assumption. }
  assert (MO : forall n k l, size n -> (0 <= k <= l)%Z -> (2 * l < n)%Z -> 0 <= B2R (ffreq n k) <= B2R (ffreq n l)).
  { intros a k l Ha K L. destruct (freq_nonneg a k Ha ltac:(lia) ltac:(lia)) as (_ & P & _). split; [lra|]. destruct (Z.eq_dec k l) as [->|NE]; [lra|].
    apply Rlt_le, freq_lt; auto; try lia. rewrite !index_eq by lia. replace (2 * k <? a)%Z with true by lia. replace (2 * l <? a)%Z with true by lia. lia. }
  split; [split|split; [|split]].
  - intros i j Hi Hj. pose proof (proj1 (Sn i ltac:(lia)) ltac:(lia)) as I2. pose proof (proj1 (Sm j ltac:(lia)) ltac:(lia)) as J2.
    destruct (V i j ltac:(lia) ltac:(lia) I2 J2) as [F E]. split; [exact F|]. rewrite E.
    destruct (freq_nonneg n i Hn ltac:(lia) I2) as (_ & _ & A & _ & _ & d & D & Ed).
    destruct (freq_nonneg m j Hm ltac:(lia) J2) as (_ & _ & B & _ & _ & d' & D' & Ed').
    unfold wave. replace (2 * i <? n)%Z with true by lia. replace (2 * j <? m)%Z with true by lia.
    rewrite (Rabs_right (sqrt _)) by (apply Rle_ge, sqrt_pos).
    replace (bpow radix2 (-50)) with (8 * u) by (change (-50)%Z with (3 + -53)%Z; rewrite bpow_plus; reflexivity).
    assert (P : forall k a, (0 <= k)%Z -> (2 * k < a)%Z -> 0 <= IZR k / IZR a) by (intros; apply Rmult_le_pos; [apply IZR_le; lia|apply Rlt_le, Rinv_0_lt_compat, IZR_lt; lia]).
    apply norm_error with d d'; auto; apply P; lia.
  - intros i j i' j' Hi Hj Hi' Hj'. pose proof (proj1 (Sn i' ltac:(lia)) ltac:(lia)) as I2. pose proof (proj1 (Sm j' ltac:(lia)) ltac:(lia)) as J2.
    destruct (V i j) as [_ ->]; try lia. destruct (V i' j') as [_ ->]; try lia. apply norm_mono; apply MO; auto; lia.
  - intros i Hi. pose proof (proj1 (Sn i ltac:(lia)) ltac:(lia)) as I2. destruct (V i 0%Z) as [_ ->]; try (unfold size in Hm; lia).
    destruct (freq_nonneg m 0 Hm) as (_ & _ & _ & _ & Z0 & _); try (unfold size in Hm; lia). rewrite Z0 by reflexivity. apply norm_axis.
    apply (freq_nonneg n i Hn); lia.
  - intros j Hj. pose proof (proj1 (Sm j ltac:(lia)) ltac:(lia)) as J2. destruct (V 0%Z j) as [_ ->]; try (unfold size in Hn; lia).
    destruct (freq_nonneg n 0 Hn) as (_ & _ & _ & _ & Z0 & _); try (unfold size in Hn; lia). rewrite Z0 by reflexivity. rewrite norm_comm. apply norm_axis.
    apply (freq_nonneg m j Hm); lia.
  - intros <- i j Hi Hj. pose proof (proj1 (Sn i ltac:(lia)) ltac:(lia)). pose proof (proj1 (Sn j ltac:(lia)) ltac:(lia)).
    destruct (V i j) as [_ ->]; try lia. destruct (V j i) as [_ ->]; try lia. apply norm_comm.
Qed.

(** ** What does not hold *)
Lemma wave_pos : forall n k, (2 * k < n)%Z -> wave n k = IZR k / IZR n.
Proof. intros n k H. unfold wave. replace (2 * k <? n)%Z with true by lia. reflexivity. Qed.

Lemma not_nearest : exists st f, fallocate [10%Z] = Ok st /\ fq st None = Ok f /\
  f [3%Z] <> ddiv (dz 3) (dz 10).
Proof. eexists _, _. split; [reflexivity|]. split; [reflexivity|]. intro E. apply (f_equal (fun x => Beqb x (ddiv (dz 3) (dz 10)))) in E. vm_compute in E. discriminate. Qed.

Lemma not_half : exists st f, fallocate [98%Z] = Ok st /\ fq st None = Ok f /\ wave 98 49 = - / 2 /\ - / 2 < B2R (f [49%Z]).
Proof.
  eexists _, _. split; [reflexivity|]. split; [reflexivity|]. split.
  - unfold wave. change (2 * 49 <? 98)%Z with false. cbn iota. lra.
  - cbn [nth]. assert (E : Bltb (ddiv (dz (-1)) (dz 2)) (ffreq 98 49) = true) by (vm_compute; reflexivity).
    assert (F : is_finite (ffreq 98 49) = true) by (vm_compute; reflexivity).
    rewrite Bltb_correct in E by (exact F || (vm_compute; reflexivity)). destruct (Rlt_bool_spec (B2R (ddiv (dz (-1)) (dz 2))) (B2R (ffreq 98 49))) as [L|L]; [clear E; rename L into E|discriminate].
    replace (- / 2) with (B2R (ddiv (dz (-1)) (dz 2))); [exact E|].
    assert (Q : B2R (ddiv (dz (-1)) (dz 2)) = B2R (@B754_finite 53 1024 true 4503599627370496 (-53) eq_refl)).
    { assert (X : Beqb (ddiv (dz (-1)) (dz 2)) (@B754_finite 53 1024 true 4503599627370496 (-53) eq_refl) = true) by (vm_compute; reflexivity).
      rewrite Beqb_correct in X by (vm_compute; reflexivity). revert X. case Req_bool_spec; [auto|discriminate]. }
    rewrite Q. unfold B2R, F2R. cbn. lra.
Qed.

Lemma differ : forall x y : double, is_finite x && is_finite y && negb (Beqb x y) = true -> B2R x <> B2R y.
Proof.
  intros x y H Q. apply andb_true_iff in H as [H E]. apply andb_true_iff in H as [Fx Fy]. rewrite Beqb_correct in E by assumption.
  rewrite Req_bool_true in E by exact Q. discriminate.
Qed.

Lemma not_grouped : exists st e e' p, fallocate [11%Z; 11%Z] = Ok st /\ fqnorm st = Ok ([e; e'], p) /\ (5 < e)%Z /\ (5 < e')%Z /\
  wave 11 3 ^ 2 + wave 11 4 ^ 2 = wave 11 5 ^ 2 + wave 11 0 ^ 2 /\ B2R (p [3%Z; 4%Z]) <> B2R (p [5%Z; 0%Z]).
Proof.
  eexists _, _, _, _. split; [reflexivity|]. split; [reflexivity|]. split; [reflexivity|]. split; [reflexivity|]. split.
  - rewrite !wave_pos by lia. lra.
  - cbn [nth]. apply differ. vm_compute. reflexivity.
Qed.
