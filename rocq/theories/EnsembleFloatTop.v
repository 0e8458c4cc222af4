(** * EnsembleFloatTop: the statements about doubles, on integers *)

From Coq Require Import ZArith Reals Lia Lra Bool List QArith Qcanon Qreals.
From Flocq Require Import Core BinarySingleNaN.
From Verif Require Import Base BaseLemmas Array3 Path Double DoubleProofs Ensemble SpecEnsemble EnsembleFloat SpecDouble EnsembleFloatProofs.
Import ListNotations.
Open Scope Z_scope.

Lemma sim_dat : forall K a b, Forall2 (exactly K) a b -> Forall2 is_number a b.
Proof. intros K a b H. induction H; constructor; auto. eapply exactly_value; eauto. Qed.

Lemma Qclt_zq : forall z, Qclt_b 0%Qc (zq z) = (0 <? z).
Proof.
  intros z. unfold Qclt_b. destruct (0 <? z) eqn:E.
  - apply negb_true_iff. apply not_true_is_false. intros H. apply Qle_bool_iff in H.
    unfold zq, Q2Qc in H. cbn [this] in H. rewrite Qred_correct in H. unfold Qle, inject_Z in H. cbn in H. lia.
  - apply negb_false_iff. apply Qle_bool_iff. unfold zq, Q2Qc. cbn [this]. rewrite Qred_correct. unfold Qle, inject_Z. cbn. lia.
Qed.

Lemma safe_exact : forall K q y, exactly K q y -> 1 <= K ->
  exists z, safe q = zq z /\ 1 <= z <= K /\ is_finite (fsafe y) = true /\ B2R (fsafe y) = IZR z.
Proof.
  intros K q y (F & z & -> & E & B) HK. unfold safe, fsafe. rewrite Qclt_zq. unfold dle.
  assert (L : Bleb y dzero = Rle_bool (B2R y) (B2R dzero)) by (apply Bleb_correct; auto).
  rewrite L, E. change (B2R dzero) with 0%R.
  destruct (0 <? z) eqn:Z0.
  - apply Z.ltb_lt in Z0. rewrite Rle_bool_false by (apply IZR_lt; lia). exists z. repeat split; auto; lia.
  - apply Z.ltb_ge in Z0. rewrite Rle_bool_true by (apply IZR_le; lia). exists 1.
    destruct (exactly_dz 1 ltac:(lia)) as (F1 & w & E1 & R1 & _). apply zq_inj in E1. subst w. repeat split; auto; lia.
Qed.

Lemma Q2R_div_zq : forall a b, 1 <= b -> Q2R (this (zq a / zq b)%Qc) = (IZR a / IZR b)%R.
Proof.
  intros a b H.
  assert (N : ~ (this (zq b) == 0)%Q).
  { intros HZ. assert (R := Q2R_zq b). rewrite (Qeq_eqR _ _ HZ) in R. unfold Q2R in R. cbn in R. rewrite Rmult_0_l in R. apply eq_IZR in R. lia. }
  assert (E : (this (zq a / zq b)%Qc == this (zq a) / this (zq b))%Q).
  { unfold Qcdiv, Qcmult, Qcinv, Q2Qc. cbn [this]. rewrite !Qred_correct. reflexivity. }
  rewrite (Qeq_eqR _ _ E), Q2R_div by exact N. rewrite !Q2R_zq. reflexivity.
Qed.

Lemma quotient_bound : forall a b, 1 <= b -> (Rabs (IZR a / IZR b) <= IZR (Z.abs a))%R.
Proof.
  intros a b H. assert (HB : (1 <= IZR b)%R) by (apply (IZR_le 1); lia).
  unfold Rdiv. rewrite Rabs_mult, <- abs_IZR. rewrite <- (Rmult_1_r (IZR (Z.abs a))) at 2.
  apply Rmult_le_compat_l; [apply IZR_le; lia|].
  rewrite Rabs_pos_eq by (left; apply Rinv_0_lt_compat; lra). rewrite <- Rinv_1. apply Rinv_le_contravar; lra.
Qed.

Lemma round_bound : forall r k, Z.abs k <= 2 ^ 53 -> 0 <= k -> (Rabs r <= IZR k)%R ->
  (Rabs (round radix2 (FLT_exp (-1074) 53) ZnearestE r) <= IZR k)%R.
Proof. intros r k HK H0 H. apply abs_round_le_generic; auto; [apply FLT_exp_valid; reflexivity|apply valid_rnd_N|apply (int_format k HK)]. Qed.

Lemma division : forall K q r x y, K <= 2 ^ 53 -> exactly K q x -> exactly K r y -> 1 <= K ->
  nearest_double (Q2R (this (q / safe r)%Qc)) (ddiv x (fsafe y)).
Proof.
  intros K q r x y HB (Fx & a & -> & Ea & Ba) Hr HK. destruct (safe_exact _ _ _ Hr HK) as (b & -> & Hb & Fy & Eb).
  rewrite Q2R_div_zq by lia.
  pose proof (Bdiv_correct 53 1024 precision exponent mode_NE x (fsafe y)) as C. rewrite Eb in C.
  assert (NZ : IZR b <> 0%R) by (apply IZR_neq; lia). specialize (C NZ). rewrite Ea in C.
  change (SpecFloat.fexp 53 1024) with (FLT_exp (-1074) 53) in C. change (round_mode mode_NE) with ZnearestE in C.
  rewrite Rlt_bool_true in C.
  - destruct C as (C1 & C2 & _). split; [unfold ddiv; rewrite C2; exact Fx|exact C1].
  - apply Rle_lt_trans with (IZR (Z.abs a)); [|change (bpow radix2 1024) with (IZR (2 ^ 1024)); apply IZR_lt; apply Z.le_lt_trans with (2 ^ 53); [lia|reflexivity]].
    apply round_bound; [lia|lia|]. apply quotient_bound. lia.
Qed.

(** A negative quotient does not round to zero. *)
Lemma negative : forall K q r x y, K <= 2 ^ 53 -> exactly K q x -> exactly K r y -> 1 <= K ->
  Qclt_b (q / safe r)%Qc 0%Qc = true -> (B2R (ddiv x (fsafe y)) < 0)%R.
Proof.
  intros K q r x y HB Hq Hr HK HN. destruct (division K q r x y HB Hq Hr HK) as [_ E]. rewrite E.
  destruct Hq as (Fx & a & -> & Ea & Ba). destruct (safe_exact _ _ _ Hr HK) as (b & Eb & Hb & _). rewrite Eb in *. rewrite Q2R_div_zq by lia.
  assert (HA : (IZR a / IZR b < 0)%R).
  { rewrite <- Q2R_div_zq by lia. unfold Qclt_b in HN. apply negb_true_iff in HN.
    replace 0%R with (Q2R (this 0%Qc)) by (unfold Q2R; cbn; lra). apply Qlt_Rlt. apply Qnot_le_lt. intros HX.
    apply Qle_bool_iff in HX. congruence. }
  assert (HBp : (0 < IZR b)%R) by (apply (IZR_lt 0); lia).
  assert (A0 : a <= -1).
  { assert (IZR a < 0)%R; [|apply (lt_IZR a 0) in H; lia]. replace (IZR a) with (IZR a / IZR b * IZR b)%R by (field; lra). nra. }
  assert (HM : (IZR a / IZR b <= - bpow radix2 (-53))%R).
  { change (bpow radix2 (-53)) with (/ IZR (2 ^ 53))%R.
    assert (HBK : (IZR b <= IZR (2 ^ 53))%R) by (apply IZR_le; lia).
    assert (HA1 : (IZR a <= -1)%R) by (apply (IZR_le a (-1)); exact A0).
    assert (HI : (/ IZR (2 ^ 53) <= / IZR b)%R) by (apply Rinv_le_contravar; lra).
    unfold Rdiv. assert (0 < / IZR b)%R by (apply Rinv_0_lt_compat; lra). nra. }
  apply Rle_lt_trans with (- bpow radix2 (-53))%R; [|pose proof (bpow_gt_0 radix2 (-53)); lra].
  apply round_le_generic; auto; [apply FLT_exp_valid; reflexivity|apply valid_rnd_N|].
  apply generic_format_opp. apply generic_format_bpow. unfold FLT_exp. lia.
Qed.

Lemma value_sim : forall L K s q r x y, K <= 2 ^ 53 -> 1 <= K -> exactly K q x -> exactly K r y ->
  rounded_value L (match s with S_heightheight => root (Exact (q / safe r)%Qc) | _ => Exact (q / safe r)%Qc end)
    (match s with S_heightheight => pow_half L (ddiv x (fsafe y)) | _ => ddiv x (fsafe y) end).
Proof.
  intros L K s q r x y HB HK Hq Hr. pose proof (division K q r x y HB Hq Hr HK) as D.
  destruct s; try exact D. unfold root. destruct (Qclt_b (q / safe r)%Qc 0%Qc) eqn:E; cbn [rounded_value].
  - exists (ddiv x (fsafe y)). destruct D as [D1 _]. repeat split; auto. eapply negative; eauto.
  - exists (ddiv x (fsafe y)). split; auto.
Qed.

Lemma results_sim : forall L K e x, K <= 2 ^ 53 -> 1 <= K -> esim K e x -> Forall2 (rounded_value L) (result e) (fresult L x).
Proof.
  intros L K e x HB HK (Es & _ & _ & _ & (_ & _ & _ & F1) & _ & (_ & _ & _ & F3)). unfold result, fresult. rewrite <- Es.
  remember (dat (e_first e)) as l eqn:E1. remember (dat (f_first x)) as l' eqn:E2. remember (dat (e_norm e)) as m eqn:E3. remember (dat (f_norm x)) as m' eqn:E4.
  clear E1 E2 E3 E4. revert m m' F3. induction F1 as [|q d l l' Hq F1 IH]; intros m m' F3; [constructor|].
  destruct F3 as [|r t m m' Hr F3]; [constructor|]. cbn [combine map fst snd]. constructor; [|apply IH; exact F3].
  apply value_sim with (K := K); auto.
Qed.

Lemma all_calls_nonneg : forall roi var M cs, Forall (fun n => 0 <= n) roi -> 1 <= M -> Forall (integral_call M) cs -> 0 <= all_calls roi var M cs.
Proof.
  intros roi var M cs HR HM H. unfold all_calls. induction H as [|c cs Hc H IH]; cbn [map zsum]; [lia|].
  pose proof (largest_nonneg roi var M c HR HM Hc). lia.
Qed.

Lemma histories_sim : forall L M asrt roi per var cs ds,
  library L -> 1 <= M -> Forall (fun n => 0 <= n) roi ->
  Forall2 same_call cs ds -> Forall (integral_call M) cs -> all_calls roi var M cs <= 2 ^ 53 ->
  alike (esim (all_calls roi var M cs)) (e <- ensemble asrt roi per var ;; run asrt cs e) (x <- fensemble asrt roi per var ;; frun L asrt ds x).
Proof.
  intros L M asrt roi per var cs ds HL HM HR HC HI HB.
  eapply alike_bind; [apply ensemble_sim|]. cbv beta. intros e x [HE HS].
  apply (run_sim L M roi var asrt cs ds HL HM HR HC HI 0 e x); auto; lia.
Qed.

Lemma integers_exact : forall L M asrt roi per var cs ds,
  library L -> 1 <= M -> Forall (fun n => 0 <= n) roi ->
  Forall2 same_call cs ds -> Forall (integral_call M) cs -> all_calls roi var M cs <= 2 ^ 53 ->
  alike (fun e x => exact_data e x /\ Forall2 (rounded_value L) (result e) (fresult L x))
    (e <- ensemble asrt roi per var ;; run asrt cs e) (x <- fensemble asrt roi per var ;; frun L asrt ds x).
Proof.
  intros L M asrt roi per var cs ds HL HM HR HC HI HB.
  eapply alike_weaken; [|apply (histories_sim L M); eauto]. intros e x HE.
  pose proof (all_calls_nonneg roi var M cs HR HM HI) as H0.
  split; [|apply results_sim with (K := Z.max 1 (all_calls roi var M cs)); [lia|lia|eapply esim_weaken; [exact HE|lia]]].
  destruct HE as (_ & _ & _ & _ & (_ & _ & _ & F1) & (_ & _ & _ & F2) & (_ & _ & _ & F3)).
  repeat split; eapply sim_dat; eauto.
Qed.

(** Such libraries exist. *)
Definition plain : libm :=
  mklibm (fun x => dtimes x x) (fun x => dtimes (dtimes x x) (dtimes x x)) (fun x => x) (fun l => fold_right dplus dzero l).

Lemma plain_library : library plain.
Proof.
  assert (SQ : forall x z, is_finite x = true -> B2R x = IZR z -> z * z <= 2 ^ 53 -> exactly (z * z) (zq (z * z)) (dtimes x x)).
  { intros x z F E H. assert (X : exactly (Z.abs z) (zq z) x) by (split; auto; exists z; repeat split; auto; lia).
    assert (EZ : Z.abs z * Z.abs z = z * z) by lia.
    pose proof (exactly_times _ _ _ _ _ _ X X ltac:(lia)) as HX. rewrite zq_times, EZ in HX. exact HX. }
  repeat split.
  - destruct (SQ x z H H0 H1) as (F & w & E & R & _). exact F.
  - destruct (SQ x z H H0 H1) as (F & w & E & R & _). apply zq_inj in E. subst w. exact R.
  - assert (A : z * z <= 2 ^ 53) by nia. destruct (SQ x z H H0 A) as (F & w & E & R & _). apply zq_inj in E. subst w.
    destruct (SQ (dtimes x x) (z * z) F R ltac:(lia)) as (F2 & w & E2 & R2 & _). exact F2.
  - assert (A : z * z <= 2 ^ 53) by nia. destruct (SQ x z H H0 A) as (F & w & E & R & _). apply zq_inj in E. subst w.
    destruct (SQ (dtimes x x) (z * z) F R ltac:(lia)) as (F2 & w & E2 & R2 & _). apply zq_inj in E2. subst w. exact R2.
  - intros l. cbn [total plain]. induction l as [|x l IH]; cbn [fold_right]; [apply adds_none|].
    apply adds_both with (l1 := [x]) (l2 := l); [apply adds_one|exact IH|apply Permutation.Permutation_refl].
Qed.
