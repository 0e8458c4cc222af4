(** * EnsembleErrorTop: the statements about rounding errors *)

From Coq Require Import ZArith QArith Qcanon Qreals Reals List Bool Lia Lra Permutation.
From Flocq Require Import Core BinarySingleNaN.
From Verif Require Import Base BaseLemmas Array3 Array3Lemmas Path Double DoubleProofs Ensemble SpecEnsemble EnsembleFloat SpecDouble SpecError.
From Verif Require Import EnsembleRun EnsembleFloatProofs EnsembleFloatTop EnsembleFloatMean DoubleError EnsembleError EnsembleErrorCalls.
Import ListNotations.
Open Scope Z_scope.

Definition slack (s : stat) : Z := match s with S_heightheight => 2 | _ => 0 end.
Definition squares (s : stat) : bool := match s with S_heightheight => true | _ => false end.
Definition cell (s : stat) (M : R) : Z -> Qc -> Qc -> double -> double -> Prop :=
  match s with S_W2 => weigh M | _ => count (squares s) (slack s) (term_size s M) end.

Lemma cell_weaken : forall s M k l q m x y, moderate M -> k <= l -> cell s M k q m x y -> cell s M l q m x y.
Proof. intros s M k l q m x y HM HL H. destruct s; cbn [cell] in *; try (eapply count_weaken; eauto; fail). eapply weigh_weaken; eauto. Qed.

Lemma cell_zero : forall s M, moderate M -> cell s M 0 0%Qc 0%Qc dzero dzero.
Proof. intros s M HM. destruct s; cbn [cell slack]; try (apply count_zero; lia). apply weigh_zero; auto. lia. Qed.

Lemma terms_nonneg : forall roi s M c, Forall (fun n => 0 <= n) roi -> bounded_call s M c -> 0 <= terms roi c.
Proof.
  intros roi s M c HR HI.
  assert (RB : 0 <= rows_bound roi).
  { unfold rows_bound. assert (0 <= zprod roi /\ 0 <= zsum roi) by (clear -HR; induction HR; cbn [zprod zsum]; nia). nia. }
  destruct s, c; cbn [bounded_call terms] in *; try contradiction; repeat match goal with H : _ /\ _ |- _ => destruct H end;
    match goal with H : proper ?f |- context[zprod (i_shape ?f)] => pose proof (proper_nonneg _ _ H) end; auto. nia.
Qed.

Definition good_library (s : stat) (L : libm) : Prop := (s = S_mean -> any_order L) /\ (s = S_heightheight -> close_squares L).

Lemma add_near : forall L s M roi var K asrt e x c d, good_library s L -> moderate M -> 0 <= K -> Forall (fun n => 0 <= n) roi -> shaped roi var e ->
  K + terms roi c <= 2 ^ 50 -> bounded_call s M c -> same_call c d -> gsim (cell s M) K e x ->
  alike (gsim (cell s M) (K + terms roi c)) (add asrt e c) (fadd L asrt x d).
Proof.
  intros L s M roi var K asrt e x c d [HL HQ] HM HK Hroi HS HB HI HC HE.
  destruct s, c; cbn [bounded_call] in HI; try contradiction; destruct d; cbn [same_call] in HC; try contradiction; cbn [terms] in *; cbn [add fadd]; cbn [cell squares slack term_size] in *.
  - destruct HI as [Hp HI]. apply mean_near; auto.
  - destruct HC as [HC <-]. destruct HI as (Hp & HI & Hm & Bm). apply mean_masked_near; auto.
  - destruct HC as (HC1 & HC2 & <-). destruct HI as (Hp & HI1 & HI2 & Bm).
    assert (EM : mask2 f0 masks = mask2 f masks) by (unfold mask2; rewrite (same_image_size _ _ HC1); reflexivity). rewrite EM.
    destruct (mask2_bits _ f masks Bm) as [B1 B2]. apply S2_near; auto.
  - destruct HC as (HC1 & HC2 & <-). destruct HI as (Hp & HI1 & HI2 & Bm).
    assert (EM : mask1 w0 fmask = mask1 w fmask) by (unfold mask1; rewrite (same_image_size _ _ HC1); reflexivity). rewrite EM.
    apply W2_near; auto. apply mask1_bits; auto.
  - destruct HC as (<- & <- & HC1 & <- & <-). destruct HI as (Hp & HI1 & Bm).
    assert (EM : mask1 f0 fmask = mask1 f fmask) by (unfold mask1; rewrite (same_image_size _ _ HC1); reflexivity). rewrite EM.
    pose proof (rows_bound_ok _ _ _ HS Hroi) as RB. pose proof (proper_nonneg _ _ Hp) as HN.
    assert (zprod (i_shape f) * (d0 (e_first e) * d1 (e_first e) * d2 (e_first e) * rows_max e) <= zprod (i_shape f) * rows_bound roi) by nia.
    eapply alike_weaken; [|apply W2c_near with (M := M) (K := K); auto; nia].
    intros a b Hab. eapply gsim_weaken; [|exact Hab]. intros. eapply count_weaken; [eassumption|nia].
  - destruct HC as (HC1 & <-). destruct HI as (Hp & HI1 & Bm).
    assert (EM : mask1 f0 fmask = mask1 f fmask) by (unfold mask1; rewrite (same_image_size _ _ HC1); reflexivity). rewrite EM.
    apply hh_near; auto. apply mask1_bits; auto.
Qed.

Lemma run_near : forall L s M roi var asrt cs ds, good_library s L -> moderate M -> Forall (fun n => 0 <= n) roi ->
  Forall2 same_call cs ds -> Forall (bounded_call s M) cs ->
  forall K e x, 0 <= K -> K + all_terms roi cs <= 2 ^ 50 -> shaped roi var e -> gsim (cell s M) K e x ->
  alike (gsim (cell s M) (K + all_terms roi cs)) (foldM (add asrt) cs e) (frun L asrt ds x).
Proof.
  intros L s M roi var asrt cs ds HL HM HR HC. induction HC as [|c d cs ds Hcd HC IH]; intros HI K e x HK HB HS HE; unfold frun; cbn [foldM].
  - cbn [alike]. unfold all_terms. cbn [map zsum]. rewrite Z.add_0_r. exact HE.
  - unfold all_terms in *. cbn [map zsum] in *. inversion HI as [|? ? HI1 HI2]; subst.
    pose proof (terms_nonneg roi s M c HR HI1) as HN.
    assert (HN2 : 0 <= zsum (map (terms roi) cs)).
    { clear - HI2 HR. induction HI2 as [|c cs Hc H IH]; cbn [map zsum]; [lia|]. pose proof (terms_nonneg roi s M c HR Hc). lia. }
    pose proof (add_near L s M roi var K asrt e x c d HL HM HK HR HS ltac:(lia) HI1 Hcd HE) as HA.
    destruct (add asrt e c) as [e'| | |] eqn:EA, (fadd L asrt x d) as [x'| | |]; cbn [alike bind] in *; try tauto.
    apply add_frame in EA. rewrite Z.add_assoc. apply IH; auto; try lia. eapply shaped_frame; eauto.
Qed.

Lemma ensemble_near : forall s M asrt roi per var, moderate M -> Forall (fun n => 0 <= n) roi ->
  alike (fun e x => gsim (cell s M) 0 e x /\ shaped roi var e /\ ensemble asrt roi per var = Ok e) (ensemble asrt roi per var) (fensemble asrt roi per var).
Proof.
  intros s M asrt roi per var HM HR. unfold ensemble, fensemble. apply alike_eq. intros ? E1. apply alike_eq. intros [[n0 n1] n2] HS. cbn [alike].
  assert (HN : 0 <= n0 /\ 0 <= n1 /\ 0 <= n2).
  { clear - HS HR. unfold shape3 in HS. destruct roi as [|a [|b [|c [|]]]]; try discriminate; inversion HS; subst; repeat match goal with H : Forall _ (_ :: _) |- _ => inversion H; clear H; subst end; lia. }
  destruct HN as (H0 & H1 & H2).
  split; [|split; [repeat split; auto|cbn; rewrite ?E1; cbn; rewrite ?HS; reflexivity]]. unfold gsim. cbn. repeat (split; [reflexivity|]).
  split; [|apply tab_sim; auto]. unfold grid. repeat (split; [apply tab_wfa; assumption|]). do 3 (split; [repeat split|]).
  intros i. assert (HZ : forall A (z : A), nth i (dat (tab n0 n1 n2 (fun _ _ _ => z))) z = z).
  { intros A z. destruct (lt_dec i (Z.to_nat (n0 * n1 * n2))); [apply nth_tab; auto|]. apply nth_overflow. unfold tab. cbn [dat]. rewrite map_length, zseq_length. lia. }
  change (dat (tab n0 n1 n2 (fun _ _ _ => 0%Qc))) with (dat (tab n0 n1 n2 (fun _ _ _ => 0%Qc))). rewrite !HZ. apply cell_zero. exact HM.
Qed.

Lemma call_stat : forall s M c, bounded_call s M c -> stat_of c = s.
Proof. intros s M c H. destruct s, c; cbn in H |- *; try contradiction; reflexivity. Qed.

Lemma histories_near : forall L s M asrt roi per var cs ds, good_library s L -> moderate M -> Forall (fun n => 0 <= n) roi ->
  Forall2 same_call cs ds -> Forall (bounded_call s M) cs -> all_terms roi cs <= 2 ^ 50 ->
  alike (fun e x => gsim (cell s M) (all_terms roi cs) e x /\ (e_stat e = Unset \/ e_stat e = s))
    (e <- ensemble asrt roi per var ;; run asrt cs e) (x <- fensemble asrt roi per var ;; frun L asrt ds x).
Proof.
  intros L s M asrt roi per var cs ds HL HM HR HC HI HB.
  eapply alike_bind; [apply (ensemble_near s M); auto|]. cbv beta. intros e x (HE & HS & EE).
  pose proof (run_near L s M roi var asrt cs ds HL HM HR HC HI 0 e x ltac:(lia) HB HS HE) as A. fold (run asrt cs e) in A.
  destruct (run asrt cs e) as [e'| | |] eqn:ER; destruct (frun L asrt ds x) as [x'| | |]; cbn [alike] in A |- *; try tauto. split; [exact A|].
  destruct (ensemble_inv _ _ _ _ _ EE) as (k0 & k1 & k2 & HK & _).
  pose proof (ok0 asrt per var roi k0 k1 k2 HR HK e EE) as O.
  clear - ER HI O HR HK EE. destruct cs as [|c l] using rev_ind; [cbn in ER; inversion ER; subst; left; exact (proj2 O)|]. right.
  rewrite (run_stat asrt per var roi k0 k1 k2 HR HK e EE l e e' c (proj1 O) ER). apply Forall_app in HI. destruct HI as [_ HI]. inversion HI; subst. eapply call_stat; eauto.
Qed.

(** ** What the cells say about the results *)

Lemma combine_nth_value : forall A B C (l : list A) (l' : list B) (f : A * B -> C) (a : A) (b : B) (c : C) (i : nat),
  (i < length l)%nat -> length l = length l' -> nth i (map f (combine l l')) c = f (nth i l a, nth i l' b).
Proof.
  intros A B C l l' f a b c i Hi HL. rewrite nth_indep with (d' := f (a, b)); [|rewrite map_length, combine_length; lia].
  rewrite map_nth. rewrite combine_nth by exact HL. reflexivity.
Qed.

Lemma safe_pos : forall m, (0 < Q2R (this m))%R -> safe m = m.
Proof.
  intros m H. unfold safe. unfold Qclt_b. destruct (Qle_bool (this m) (this 0%Qc)) eqn:E; [|reflexivity].
  apply Qle_bool_iff in E. apply Qle_Rle in E. rewrite Q2R_0 in E. lra.
Qed.
Lemma safe_none : forall m, (Q2R (this m) <= 0)%R -> safe m = 1%Qc.
Proof.
  intros m H. unfold safe. unfold Qclt_b. destruct (Qle_bool (this m) (this 0%Qc)) eqn:E; [reflexivity|]. exfalso.
  assert (HL : Qle_bool (this m) (this 0%Qc) = true); [|congruence]. apply Qle_bool_iff. apply Rle_Qle. rewrite Q2R_0. exact H.
Qed.
Lemma fsafe_pos : forall y, is_finite y = true -> (0 < B2R y)%R -> fsafe y = y.
Proof. intros y F H. unfold fsafe, dle. rewrite Bleb_correct by auto. change (B2R dzero) with 0%R. rewrite Rle_bool_false by lra. reflexivity. Qed.
Lemma fsafe_none : forall y, is_finite y = true -> (B2R y <= 0)%R -> fsafe y = done.
Proof. intros y F H. unfold fsafe, dle. rewrite Bleb_correct by auto. change (B2R dzero) with 0%R. rewrite Rle_bool_true by lra. reflexivity. Qed.

Lemma Q2R_over : forall q m, (0 < Q2R (this m))%R -> Q2R (this (q / m)%Qc) = (Q2R (this q) / Q2R (this m))%R.
Proof.
  intros q m H.
  assert (N : ~ (this m == 0)%Q) by (intros E; rewrite (Qeq_eqR _ _ E) in H; unfold Q2R in H; cbn in H; lra).
  assert (E : (this (q / m)%Qc == this q / this m)%Q) by (unfold Qcdiv, Qcmult, Qcinv, Q2Qc; cbn [this]; rewrite !Qred_correct; reflexivity).
  rewrite (Qeq_eqR _ _ E), Q2R_div by exact N. reflexivity.
Qed.

Lemma nothing_quotient : forall q x b k, (0 <= b)%R -> approx k 0 q x -> Q2R (this (q / 1)%Qc) = Q2R (this q) /\ close b (q / 1)%Qc (ddiv x done) /\ Q2R (this q) = 0%R.
Proof.
  intros q x b k Hb (_ & F & B & E). rewrite Rmult_0_r in E.
  assert (Q0 : Q2R (this q) = 0%R) by (pose proof (Rabs_pos (Q2R (this q))); apply Rabs_eq_R0; lra).
  assert (X0 : B2R x = 0%R).
  { rewrite Q0, Rminus_0_r in E. pose proof (Rabs_pos (B2R x)). apply Rabs_eq_R0. lra. }
  assert (E1 : (q / 1)%Qc = q) by (field; discriminate). rewrite E1. split; [reflexivity|]. split; [|exact Q0].
  pose proof (Bdiv_correct 53 1024 precision exponent mode_NE x done) as C.
  assert (R1 : B2R done = 1%R) by (destruct (exactly_dz 1 ltac:(lia)) as (_ & w & EW & RW & _); apply zq_inj in EW; subst w; exact RW).
  assert (F1 : is_finite done = true) by reflexivity.
  rewrite R1, X0 in C. specialize (C ltac:(lra)). unfold Rdiv in C. rewrite Rmult_0_l, round_0, Rabs_R0 in C by apply valid_rnd_round_mode.
  rewrite Rlt_bool_true in C by apply bpow_gt_0. destruct C as (C1 & C2 & _). split; [unfold ddiv; rewrite C2; exact F|].
  unfold ddiv. rewrite C1, Q0, Rminus_0_r, Rabs_R0. exact Hb.
Qed.

Lemma medium_term : forall s M, moderate M -> medium (term_size s M).
Proof. intros s M HM. destruct (moderate_medium M HM) as (H1 & H2 & H3). destruct s; cbn [term_size]; assumption. Qed.

Lemma value_near : forall L s st M k q m x y, s <> S_W2 -> moderate M -> k <= 2 ^ 50 -> count (squares s) (slack s) (term_size s M) k q m x y -> st = Unset \/ st = s ->
  exists n, 0 <= n <= k /\ m = zq n /\ is_number (zq n) y /\
    close (IZR n * (IZR n + 2) * unit * term_size s M)%R q x /\
    close_value L ((IZR n + 3) * unit * term_size s M)%R
      (match st with S_heightheight => root (Exact (q / safe m)%Qc) | _ => Exact (q / safe m)%Qc end)
      (match st with S_heightheight => pow_half L (ddiv x (fsafe y)) | _ => ddiv x (fsafe y) end).
Proof.
  intros L s st M k q m x y NW HM HK (n & Hn & -> & Fy & Vy & HR & HP) HS.
  pose proof (medium_term s M HM) as HT. pose proof (medium_pos _ HT) as TP. set (T := term_size s M) in *.
  assert (HA : 0 <= slack s <= 2) by (destruct s; cbn; lia). assert (HU : (0 <= unit)%R) by apply bpow_ge_0.
  pose proof (IZR_le _ _ (proj1 Hn)) as N0. pose proof (IZR_le _ _ (proj1 HA)) as A0. pose proof (IZR_le _ _ (proj2 HA)) as A2. cbn [IZR] in *.
  assert (HQ : close ((IZR n + 3) * unit * T)%R (q / safe (zq n))%Qc (ddiv x (fsafe y)) /\ (squares s = true -> (0 <= Q2R (this (q / safe (zq n))%Qc))%R)).
  { destruct (Z.eq_dec n 0) as [->|NZ].
    - rewrite safe_none by (rewrite Q2R_zq; cbn; lra). rewrite fsafe_none by (auto; rewrite Vy; cbn; lra).
      unfold rel in HR. rewrite Rmult_0_l in HR.
      destruct (nothing_quotient q x ((IZR 0 + 3) * unit * T)%R _ ltac:(repeat apply Rmult_le_pos; cbn; lra) HR) as (E1 & E2 & E3).
      split; [exact E2|]. intros _. rewrite E1, E3. lra.
    - assert (N1 : (1 <= IZR n)%R) by (apply (IZR_le 1); lia).
      assert (PM : (0 < Q2R (this (zq n)))%R) by (rewrite Q2R_zq; lra).
      rewrite safe_pos by exact PM. rewrite fsafe_pos by (auto; rewrite Vy; lra). unfold close.
      rewrite Q2R_over by exact PM. rewrite Q2R_zq.
      destruct (rel_quotient (slack s) T n q x y HT ltac:(lia) ltac:(lia) ltac:(lia) HR Fy Vy) as [F E].
      split; [split; [exact F|]|].
      + apply Rle_trans with (1 := E). unfold unit. rewrite (Rmult_comm (IZR n + 3)). apply Rmult_le_compat_r; [lra|]. apply Rmult_le_compat_l; [apply bpow_ge_0|lra].
      + intros HX. specialize (HP HX). apply Rmult_le_pos; [exact HP|]. left. apply Rinv_0_lt_compat. lra. }
  exists n. split; [exact Hn|]. split; [reflexivity|]. split; [split; [exact Fy|rewrite Q2R_zq; exact Vy]|]. split.
  - destruct HR as (_ & F & _ & E). split; [exact F|]. apply Rle_trans with (1 := E). rewrite plus_IZR. unfold unit.
    replace (IZR n * (IZR n + 2) * bpow radix2 (-52) * T)%R with (bpow radix2 (-52) * (IZR n + 2) * (IZR n * T))%R by ring.
    apply Rmult_le_compat_r; [apply Rmult_le_pos; lra|]. apply Rmult_le_compat_l; [exact HU|lra].
  - destruct HQ as [HQ HPos].
    assert (HV : close_value L ((IZR n + 3) * unit * T)%R (Exact (q / safe (zq n))%Qc) (ddiv x (fsafe y))) by exact HQ.
    destruct HS as [-> | ->]; [exact HV|]. destruct s; try exact HV. specialize (HPos eq_refl).
    unfold root. unfold Qclt_b. destruct (Qle_bool (this 0%Qc) (this (q / safe (zq n))%Qc)) eqn:E.
    + cbn [negb close_value]. exists (ddiv x (fsafe y)). split; [exact HQ|reflexivity].
    + exfalso. assert (HL : Qle_bool (this 0%Qc) (this (q / safe (zq n))%Qc) = true); [|congruence]. apply Qle_bool_iff. apply Rle_Qle. rewrite Q2R_0. exact HPos.
Qed.

Lemma weight_near : forall L st M k q m x y, moderate M -> 0 <= k <= 2 ^ 50 -> weigh M k q m x y -> st = Unset \/ st = S_W2 ->
  (0 <= Q2R (this m))%R /\ close (IZR k * unit * Q2R (this m))%R m y /\ close (IZR k * unit * (M * Q2R (this m)))%R q x /\
    close_value L ((4 * IZR k + 2) * unit * M)%R
      (match st with S_heightheight => root (Exact (q / safe m)%Qc) | _ => Exact (q / safe m)%Qc end)
      (match st with S_heightheight => pow_half L (ddiv x (fsafe y)) | _ => ddiv x (fsafe y) end).
Proof.
  intros L st M k q m x y HM HK (_ & Hm & Hy & Hx) HS. pose proof HM as [ML MU]. pose proof (bpow_gt_0 radix2 (-400)) as P4.
  assert (HU : (0 <= unit)%R) by apply bpow_ge_0. pose proof (IZR_le _ _ (proj1 HK)) as K0. cbn [IZR] in K0.
  split; [lra|]. split; [destruct Hy as (_ & F & _ & E); split; [exact F|]; apply Rle_trans with (1 := E); unfold unit; lra|].
  split; [destruct Hx as (_ & F & _ & E); split; [exact F|]; apply Rle_trans with (1 := E); unfold unit; lra|].
  assert (HQ : close ((4 * IZR k + 2) * unit * M)%R (q / safe m)%Qc (ddiv x (fsafe y))).
  { destruct (Rle_lt_dec (Q2R (this m)) 0) as [Z0|P0].
    - assert (M0 : Q2R (this m) = 0%R) by lra. rewrite M0, Rmult_0_r in Hx. rewrite M0 in Hy. rewrite safe_none by lra.
      pose proof Hy as (_ & Fy & _ & Ey). rewrite M0, Rmult_0_r, Rminus_0_r in Ey. pose proof (Rabs_pos (B2R y)) as PY.
      assert (Y0 : B2R y = 0%R) by (apply Rabs_eq_R0; lra). rewrite fsafe_none by (auto; lra).
      apply (nothing_quotient q x ((4 * IZR k + 2) * unit * M)%R k); auto. repeat apply Rmult_le_pos; lra.
    - destruct (weighted_quotient k M q m x y HK HM P0 Hy Hx) as (YP & F & E). rewrite safe_pos by exact P0. rewrite fsafe_pos; [|apply Hy|exact YP].
      unfold close. rewrite Q2R_over by exact P0. split; [exact F|]. apply Rle_trans with (1 := E). unfold unit. lra. }
  destruct HS as [-> | ->]; exact HQ.
Qed.

Lemma lengths : forall C k e x, gsim C k e x ->
  length (dat (e_norm e)) = length (dat (e_first e)) /\ length (dat (f_first x)) = length (dat (e_first e)) /\ length (dat (f_norm x)) = length (dat (e_first e)).
Proof.
  intros C k e x (_ & _ & _ & _ & (W1 & W2 & W3 & W4 & (A0 & A1 & A2) & (B0 & B1 & B2) & (C0 & C1 & C2) & _) & _).
  destruct W1 as (_ & _ & _ & L1), W2 as (_ & _ & _ & L2), W3 as (_ & _ & _ & L3), W4 as (_ & _ & _ & L4).
  rewrite A0, A1, A2 in L2. rewrite B0, B1, B2 in L3. rewrite C0, C1, C2 in L4. unfold lenZ in *. lia.
Qed.

Lemma result_lengths : forall C k L e x, gsim C k e x ->
  lenZ (fnorm x) = lenZ (norm e) /\ lenZ (fdata_first x) = lenZ (norm e) /\ lenZ (fresult L x) = lenZ (norm e).
Proof.
  intros C k L e x H. destruct (lengths _ _ _ _ H) as (L1 & L2 & L3). unfold fnorm, fdata_first, norm, fresult, lenZ. rewrite map_length, combine_length. lia.
Qed.

Lemma result_cell : forall C k L e x r, gsim C k e x -> 0 <= r < lenZ (norm e) ->
  C k (qn (data_first e) r) (qn (norm e) r) (dn (fdata_first x) r) (dn (fnorm x) r) /\
  vn (result e) r = (match e_stat e with S_heightheight => root (Exact (qn (data_first e) r / safe (qn (norm e) r))%Qc) | _ => Exact (qn (data_first e) r / safe (qn (norm e) r))%Qc end) /\
  dn (fresult L x) r = (match e_stat e with S_heightheight => pow_half L (ddiv (dn (fdata_first x) r) (fsafe (dn (fnorm x) r))) | _ => ddiv (dn (fdata_first x) r) (fsafe (dn (fnorm x) r)) end).
Proof.
  intros C k L e x r H Hr. destruct (lengths _ _ _ _ H) as (L1 & L2 & L3). destruct H as (ES & _ & _ & _ & (_ & _ & _ & _ & _ & _ & _ & HC) & _).
  unfold norm, lenZ in Hr. unfold vn, dn, qn, result, fresult, data_first, norm, fdata_first, fnorm. split; [apply HC|]. rewrite <- ES. split.
  - rewrite combine_nth_value with (a := 0%Qc) (b := 0%Qc) by lia. cbv zeta. cbn [fst snd]. reflexivity.
  - rewrite combine_nth_value with (a := dzero) (b := dzero) by lia. cbv zeta. cbn [fst snd]. reflexivity.
Qed.

Lemma counted_error : forall L s M asrt roi per var cs ds, s <> S_W2 -> (s = S_mean -> any_order L) -> (s = S_heightheight -> close_squares L) -> moderate M -> Forall (fun n => 0 <= n) roi ->
  Forall2 same_call cs ds -> Forall (bounded_call s M) cs -> all_terms roi cs <= 2 ^ 50 ->
  alike (counted_close s M L (all_terms roi cs)) (e <- ensemble asrt roi per var ;; run asrt cs e) (x <- fensemble asrt roi per var ;; frun L asrt ds x).
Proof.
  intros L s M asrt roi per var cs ds NW HO HQ HM HR HC HI HB. eapply alike_weaken; [|apply (histories_near L s M); auto; split; auto].
  cbv beta. intros e x [HG HS]. destruct (result_lengths _ _ L _ _ HG) as (L1 & L2 & L3). split; [exact L1|]. split; [exact L2|]. split; [exact L3|].
  intros r Hr. destruct (result_cell _ _ L _ _ _ HG Hr) as (CC & -> & ->).
  assert (CN : count (squares s) (slack s) (term_size s M) (all_terms roi cs) (qn (data_first e) r) (qn (norm e) r) (dn (fdata_first x) r) (dn (fnorm x) r)) by (destruct s; try exact CC; contradiction).
  apply value_near with (k := all_terms roi cs) (st := e_stat e) (L := L); auto.
Qed.

Lemma weighted_error : forall L M asrt roi per var cs ds, moderate M -> Forall (fun n => 0 <= n) roi ->
  Forall2 same_call cs ds -> Forall (bounded_call S_W2 M) cs -> all_terms roi cs <= 2 ^ 50 ->
  alike (weighted_close M L (all_terms roi cs)) (e <- ensemble asrt roi per var ;; run asrt cs e) (x <- fensemble asrt roi per var ;; frun L asrt ds x).
Proof.
  intros L M asrt roi per var cs ds HM HR HC HI HB. eapply alike_weaken; [|apply (histories_near L S_W2 M); auto; split; discriminate].
  cbv beta. intros e x [HG HS]. destruct (result_lengths _ _ L _ _ HG) as (L1 & L2 & L3). split; [exact L1|]. split; [exact L2|]. split; [exact L3|].
  intros r Hr. destruct (result_cell _ _ L _ _ _ HG Hr) as (CC & -> & ->).
  assert (0 <= all_terms roi cs) by (destruct CC; assumption).
  apply weight_near with (k := all_terms roi cs) (st := e_stat e) (L := L); auto.
Qed.

(** ** The library of EnsembleFloatTop *)

Lemma plain_close : close_squares plain /\ any_order plain.
Proof.
  split; [|destruct plain_library as (_ & _ & H); exact H]. intros z F B. cbn [pow2 plain].
  assert (S : (Rabs (B2R z * B2R z) <= bpow radix2 1000)%R).
  { rewrite Rabs_mult. replace 1000 with (500 + 500) by lia. rewrite bpow_plus. apply Rmult_le_compat; auto using Rabs_pos. }
  destruct (product_of z z F F S) as [F2 E]. split; [exact F2|]. rewrite E.
  pose proof (rnd_error (B2R z * B2R z)) as HE. rewrite (Rabs_pos_eq (B2R z * B2R z)) in HE by apply Rle_0_sqr.
  assert (P : (0 <= B2R z * B2R z)%R) by apply Rle_0_sqr.
  assert (H1 : (bpow radix2 (-53) <= bpow radix2 (-52))%R) by (apply bpow_le; lia).
  assert (H2 : (bpow radix2 (-1075) <= bpow radix2 (-1074))%R) by (apply bpow_le; lia).
  nra.
Qed.
