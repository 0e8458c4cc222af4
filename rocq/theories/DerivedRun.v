(** * DerivedRun: the variance of heightheight over a history, and independence of the flag
    [variance] (proofs only) *)

From Coq Require Import ZArith QArith Qcanon List Bool Lia Permutation.
From Verif Require Import Base BaseLemmas SpecCluster ClusterGeom ClusterMain Array3 Array3Lemmas Path SpecPath SpecDilate DilateTop
  Ensemble SpecEnsemble EnsembleSums EnsembleLin EnsembleWindow EnsembleTop EnsembleAdd EnsembleRun DerivedEnsemble SpecAlgebra DerivedAlgebra.
Import ListNotations.
Open Scope Z_scope.

Lemma sum_flat_map : forall A (g : A -> list Qc) cs (T : Qc -> Qc), sum_over (flat_map g cs) T = sum_over cs (fun c => sum_over (g c) T).
Proof. intros A g cs T. induction cs as [|c cs IH]; cbn [flat_map]; auto. rewrite sum_app, IH. reflexivity. Qed.

Lemma hh_one : forall asrt per var roi c, height_call per roi c ->
  exists e, fresh asrt roi per var c = Ok e /\ forall r, pixel roi r -> let l := height_differences per (offset roi r) c in
    first_at e r = sum_over l (fun x => x) /\
    second_at e r = sum_over l (fun x => if var then (x * x)%Qc else 0%Qc) /\ norm_at e r = zq (lenZ l).
Proof.
  intros asrt per var roi [| | | | | |f m|] H; cbn [height_call] in H; try contradiction. destruct H as (HS & Hf & HM).
  destruct (HH_any asrt per var roi _ f m HS Hf HM) as (e & E & S & V). exists e. split; auto. intros r Hr.
  destruct (V r Hr) as (A1 & A2 & A3 & A4). cbv zeta in *. rewrite A1, A2, A3, <- sum_one.
  destruct m as [m|]; cbn [height_differences mask1] in *; rewrite !sum_map.
  - auto.
  - cbn [zeros i_vals]. rewrite seen_zeros. auto.
Qed.

Lemma sum_of_squares_nonneg : forall l, (0 <= sample_variance l)%Qc \/ lenZ l < 2.
Proof.
  intros l. destruct (Z_lt_le_dec (lenZ l) 2) as [L|L]; [right; auto|left]. unfold sample_variance.
  assert (P : (0 < zq (lenZ l) - 1)%Qc) by (rewrite <- zq_1, <- zq_sub, <- zq_0; apply zq_lt; lia).
  assert (N : (0 <= sum_over l (fun x => (x - average l) * (x - average l)))%Qc) by (apply sum_nonneg; intros; apply sq_nonneg).
  replace 0%Qc with (0 / (zq (lenZ l) - 1))%Qc by (unfold Qcdiv; ring). apply div_mono; auto.
Qed.

Lemma average_nonneg : forall l, (forall x, In x l -> (0 <= x)%Qc) -> 1 <= lenZ l -> (0 <= average l)%Qc.
Proof.
  intros l H L. unfold average. replace 0%Qc with (0 / zq (lenZ l))%Qc by (unfold Qcdiv; ring). apply div_mono.
  - rewrite <- zq_0. apply zq_lt. lia.
  - apply sum_nonneg. auto.
Qed.

Lemma differences_nonneg : forall per d c x, In x (height_differences per d c) -> (0 <= x)%Qc.
Proof.
  intros per d [| | | | | |f [m|]|] x H; cbn [height_differences] in H; try contradiction;
    apply in_map_iff in H; destruct H as (pq & <- & _); unfold sqdiff; apply sq_nonneg.
Qed.

Lemma root_nonneg : forall q, (0 <= q)%Qc -> root (Exact q) = Root q.
Proof.
  intros q H. unfold root. replace (Qclt_b q 0) with false; auto. symmetry. apply not_true_is_false. intros T. apply Qclt_b_iff in T.
  exact (Qclt_not_le _ _ T H).
Qed.

Lemma nth_error_combine : forall A B (l : list A) (l' : list B) n, nth_error (combine l l') n =
  match nth_error l n, nth_error l' n with Some x, Some y => Some (x, y) | _, _ => None end.
Proof.
  induction l as [|x l IH]; intros [|y l'] [|n]; cbn [combine nth_error]; auto.
  - destruct (nth_error l n); reflexivity.
Qed.

Lemma qn_nth_error : forall v r, 0 <= r < lenZ v -> nth_error v (Z.to_nat r) = Some (qn v r).
Proof. intros v r H. unfold qn. apply nth_error_nth'. unfold lenZ in H. lia. Qed.

Lemma Qc_mult_pos : forall a b, (0 < a)%Qc -> (0 < b)%Qc -> (0 < a * b)%Qc.
Proof. intros a b Ha Hb. rewrite <- (Qcmult_0_l b). apply Qcmult_lt_compat_r; auto. Qed.

Lemma Qc_inv_pos : forall a, (0 < a)%Qc -> (0 < / a)%Qc.
Proof. intros a H. unfold Qclt in *. cbn [this Qcinv Q2Qc] in *. rewrite !Qred_correct. apply Qinv_lt_0_compat. exact H. Qed.

Lemma hh_history : forall asrt roi per var e0 cs, Forall (fun n => 0 <= n) roi -> ensemble asrt roi per var = Ok e0 ->
  (forall c, In c cs -> height_call per roi c) ->
  exists e, run asrt cs e0 = Ok e /\ forall r, pixel roi r ->
    let l := flat_map (height_differences per (offset roi r)) cs in
    (1 <= lenZ l -> result_at e r = Root (average l)) /\
    (2 <= lenZ l -> var = true -> variance_at e r = Some (Root (sample_variance l))) /\
    (2 <= lenZ l -> var = false -> (exists x, In x l /\ x <> 0%Qc) -> variance_at e r = Some NaN).
Proof.
  intros asrt roi per var e0 cs HR HE HC.
  assert (HF : forall c, In c cs -> exists ec, fresh asrt roi per var c = Ok ec).
  { intros c IN. destruct (hh_one asrt per var roi c (HC c IN)) as (ec & E & _). eauto. }
  assert (HM : forall c, In c cs -> stat_of c = S_heightheight).
  { intros c IN. specialize (HC c IN). destruct c; try contradiction; reflexivity. }
  destruct (add_runs asrt roi per var e0 cs HR HE (ex_intro _ S_heightheight HM) HF) as [e H]. exists e. split; auto.
  destruct (add_sum asrt roi per var e0 cs e HR HE H) as (SH & es & F2 & SD). intros r Hr. cbv zeta.
  set (l := flat_map (height_differences per (offset roi r)) cs).
  destruct (SD r Hr) as (D1 & D2 & D3).
  assert (Y : forall (G : ens -> Qc) (T : Qc -> Qc), (forall c ec, In c cs -> fresh asrt roi per var c = Ok ec -> G ec = sum_over (height_differences per (offset roi r) c) T) ->
    sum_over es G = sum_over l T).
  { intros G T HG. rewrite (sum_over_fresh _ _ _ _ F2). unfold l. rewrite sum_flat_map. apply sum_ext. intros c IN.
    destruct (HF c IN) as (ec & Ec). rewrite Ec. auto. }
  assert (E1 : first_at e r = sum_over l (fun x => x)).
  { rewrite D1. apply Y. intros c ec IN Ec. destruct (hh_one asrt per var roi c (HC c IN)) as (ec' & Ec' & V). rewrite Ec in Ec'. injection Ec' as <-. apply (V r Hr). }
  assert (E2 : second_at e r = sum_over l (fun x => if var then (x * x)%Qc else 0%Qc)).
  { rewrite D2. apply Y. intros c ec IN Ec. destruct (hh_one asrt per var roi c (HC c IN)) as (ec' & Ec' & V). rewrite Ec in Ec'. injection Ec' as <-. apply (V r Hr). }
  assert (E3 : norm_at e r = zq (lenZ l)).
  { rewrite D3, <- sum_one. apply Y. intros c ec IN Ec. destruct (hh_one asrt per var roi c (HC c IN)) as (ec' & Ec' & V). rewrite Ec in Ec'. injection Ec' as <-.
    rewrite sum_one. apply (V r Hr). }
  assert (ST : 1 <= lenZ l -> e_stat e = S_heightheight).
  { intros Hl. destruct (ensemble_inv _ _ _ _ _ HE) as (k0 & k1 & k2 & HK & _).
    pose proof (ok0 asrt per var roi k0 k1 k2 HR HK e0 HE) as O.
    destruct (rev cs) as [|c rr] eqn:ER.
    - apply (f_equal (@rev call)) in ER. rewrite rev_involutive in ER. unfold l in Hl. rewrite ER in Hl. cbn in Hl. lia.
    - apply (f_equal (@rev call)) in ER. rewrite rev_involutive in ER. cbn [rev] in ER. rewrite <- (HM c) by (rewrite ER; apply in_or_app; right; left; auto).
      rewrite ER in H. eapply run_stat with (k0 := k0) (k1 := k1) (k2 := k2); eauto. apply O. }
  assert (SF : 1 <= lenZ l -> safe (zq (lenZ l)) = zq (lenZ l)).
  { intros Hl. apply safe_pos. rewrite <- zq_0. apply zq_lt. lia. }
  assert (NN : forall x, In x l -> (0 <= x)%Qc).
  { intros x Hx. unfold l in Hx. apply in_flat_map in Hx. destruct Hx as (c & _ & Hx). eapply differences_nonneg; eauto. }
  destruct SH as (L1 & L2 & L3 & L4). unfold pixel in Hr.
  assert (VA : 1 <= lenZ l -> variance_at e r = Some (root (var_of (first_at e r) (second_at e r) (norm_at e r)))).
  { intros Hl. unfold variance_at, variance. rewrite ST by auto. rewrite map_map, nth_error_map, !nth_error_combine.
    unfold data_first, data_second, norm in L1, L2, L3.
    rewrite !qn_nth_error by lia. reflexivity. }
  split; [|split].
  - intros Hl. assert (RA : result_at e r = root (Exact (first_at e r / safe (norm_at e r))%Qc)).
    { unfold result_at. apply nth_error_nth. unfold result. rewrite ST by auto. rewrite nth_error_map, nth_error_combine.
      unfold data_first, norm in L1, L3. rewrite !qn_nth_error by lia. reflexivity. }
    rewrite RA, E1, E3, SF by auto. apply root_nonneg. apply average_nonneg; auto.
  - intros Hl ->. rewrite VA by lia. rewrite E1, E2, E3. unfold var_of. rewrite SF by lia.
    assert (N1 : (zq (lenZ l) - 1 <> 0)%Qc). { rewrite <- zq_1, <- zq_sub, <- zq_0. intros EQ. apply zq_inj in EQ. lia. }
    assert (N0 : (zq (lenZ l) <> 0)%Qc). { rewrite <- zq_0. intros EQ. apply zq_inj in EQ. lia. }
    destruct (Qceq_b _ _) eqn:EQ; [apply Qceq_b_iff in EQ; contradiction|]. rewrite var_formula; auto. f_equal. apply root_nonneg.
    destruct (sum_of_squares_nonneg l) as [P|P]; [auto|lia].
  - intros Hl -> (x & Hx & Nx). rewrite VA by lia. rewrite E1, E2, E3, sum_zero. unfold var_of. rewrite SF by lia.
    assert (N1 : (zq (lenZ l) - 1 <> 0)%Qc). { rewrite <- zq_1, <- zq_sub, <- zq_0. intros EQ. apply zq_inj in EQ. lia. }
    destruct (Qceq_b _ _) eqn:EQ; [apply Qceq_b_iff in EQ; contradiction|]. f_equal. unfold root.
    replace (Qclt_b _ 0) with true; auto. symmetry. apply Qclt_b_iff.
    set (A := sum_over l (fun y => y)). set (n := zq (lenZ l)) in *.
    assert (PA : (0 < A)%Qc).
    { assert (N : (0 <= A)%Qc) by (apply sum_nonneg; auto). destruct (Qcle_lt_or_eq _ _ N) as [P|P]; auto.
      exfalso. apply Nx. apply (sum_zero_all _ l (fun y => y)); auto. }
    assert (Pn : (0 < n)%Qc) by (unfold n; rewrite <- zq_0; apply zq_lt; lia).
    assert (Pm : (0 < n - 1)%Qc) by (unfold n; rewrite <- zq_1, <- zq_sub, <- zq_0; apply zq_lt; lia).
    assert (N0 : n <> 0%Qc) by (intros Z; rewrite Z in Pn; exact (Qclt_not_eq _ _ Pn eq_refl)).
    apply Qclt_minus_iff.
    replace (0 + - ((0 / n - A / n * (A / n)) * n / (n - 1)))%Qc with (A * A * (/ n * / (n - 1)))%Qc by (field; auto).
    repeat apply Qc_mult_pos; auto; apply Qc_inv_pos; auto.
Qed.

(** ** The flag [variance] has no influence on the result *)

(** Everything but the flag and the second moment; the second moment has the same layout. *)
Definition laid_out (a : arr Qc) (n0 n1 n2 : Z) : Prop :=
  d0 a = n0 /\ d1 a = n1 /\ d2 a = n2 /\ length (dat a) = Z.to_nat (n0 * n1 * n2).
Definition alike (n0 n1 n2 : Z) (e e' : ens) : Prop :=
  e_stat e' = e_stat e /\ e_per e' = e_per e /\ e_roi e' = e_roi e /\ e_first e' = e_first e /\ e_norm e' = e_norm e /\
  laid_out (e_second e) n0 n1 n2 /\ laid_out (e_second e') n0 n1 n2.

Lemma bind_alike : forall A B (R : B -> B -> Prop) (m : res A) k k', (forall a, m = Ok a -> same_outcome R (k a) (k' a)) ->
  same_outcome R (bind m k) (bind m k').
Proof. intros A B R [a| | |] k k' H; cbn [bind same_outcome]; auto. Qed.

Lemma foldM_alike : forall A S (R : S -> S -> Prop) (F : S -> A -> res S) l, (forall s s' a, R s s' -> same_outcome R (F s a) (F s' a)) ->
  forall s s', R s s' -> same_outcome R (foldM F l s) (foldM F l s').
Proof.
  intros A S R F l HF. induction l as [|a l IH]; intros s s' H; cbn [foldM]; [exact H|].
  specialize (HF s s' a H). destruct (F s a), (F s' a); cbn [same_outcome bind] in *; try contradiction; auto.
Qed.

Lemma plus_laid_out : forall a v n0 n1 n2, laid_out a n0 n1 n2 -> laid_out (plus a v) n0 n1 n2.
Proof.
  intros a v n0 n1 n2 (H1 & H2 & H3 & H4). unfold plus, tab, laid_out. cbn [d0 d1 d2 dat]. rewrite map_length, zseq_length, H1, H2, H3. auto.
Qed.

Lemma upd_length' : forall A (l : list A) n v, length (upd n v l) = length l.
Proof. induction l as [|x l IH]; intros [|n] v; cbn [upd length]; auto. Qed.

Lemma plus0_alike : forall a a' v n0 n1 n2, laid_out a n0 n1 n2 -> laid_out a' n0 n1 n2 ->
  same_outcome (fun b b' => laid_out b n0 n1 n2 /\ laid_out b' n0 n1 n2) (plus0 a v) (plus0 a' v).
Proof.
  intros a a' v n0 n1 n2 (H1 & H2 & H3 & H4) (K1 & K2 & K3 & K4). unfold plus0, vget. cbn [Z.ltb Z.compare Z.to_nat].
  destruct (dat a) as [|x l] eqn:E, (dat a') as [|x' l'] eqn:E'; cbn [length] in *; try lia; cbn [nth_error bind same_outcome]; auto.
  unfold laid_out. cbn [d0 d1 d2 dat]. cbn [upd length] in *. repeat split; auto.
Qed.

Lemma alike_stat : forall n0 n1 n2 e e' s, alike n0 n1 n2 e e' -> alike n0 n1 n2 (set_stat e s) (set_stat e' s).
Proof. intros n0 n1 n2 e e' s (H1 & H2 & H3 & H4 & H5 & H6 & H7). unfold alike, set_stat. cbn. auto 10. Qed.

Lemma alike_data : forall n0 n1 n2 e e' f s s' n, alike n0 n1 n2 e e' -> laid_out s n0 n1 n2 -> laid_out s' n0 n1 n2 ->
  alike n0 n1 n2 (set_data e f s n) (set_data e' f s' n).
Proof. intros n0 n1 n2 e e' f s s' n (H1 & H2 & H3 & H4 & H5 & H6 & H7) S S'. unfold alike, set_data. cbn. auto 10. Qed.

Ltac alike_step :=
  match goal with
  | |- same_outcome _ (bind ?m _) (bind ?m _) => apply bind_alike; let x := fresh "x" in intros x _
  | |- same_outcome _ (if ?b then _ else _) (if ?b then _ else _) => destruct b
  end.

Lemma S2_point_alike : forall n0 n1 n2 P F G Fm Gm e e' x, alike n0 n1 n2 e e' ->
  same_outcome (alike n0 n1 n2) (S2_point P F G Fm Gm e x) (S2_point P F G Fm Gm e' x).
Proof.
  intros n0 n1 n2 P F G Fm Gm e e' x H. pose proof H as (H1 & H2 & H3 & H4 & H5 & H6 & H7). unfold S2_point. rewrite H4, H5.
  repeat alike_step; cbn [same_outcome]; auto. all: apply alike_data; auto.
Qed.

Lemma C2_point_alike : forall n0 n1 n2 P F G Fm Gm e e' x, alike n0 n1 n2 e e' ->
  same_outcome (alike n0 n1 n2) (C2_point P F G Fm Gm e x) (C2_point P F G Fm Gm e' x).
Proof.
  intros n0 n1 n2 P F G Fm Gm e e' x H. pose proof H as (H1 & H2 & H3 & H4 & H5 & H6 & H7). unfold C2_point. rewrite H4, H5.
  repeat alike_step; cbn [same_outcome]; auto. all: apply alike_data; auto.
Qed.

Lemma W2_point_alike : forall n0 n1 n2 P F G Gm e e' x, alike n0 n1 n2 e e' ->
  same_outcome (alike n0 n1 n2) (W2_point P F G Gm e x) (W2_point P F G Gm e' x).
Proof.
  intros n0 n1 n2 P F G Gm e e' x H. pose proof H as (H1 & H2 & H3 & H4 & H5 & H6 & H7). unfold W2_point. rewrite H4, H5.
  repeat alike_step; cbn [same_outcome]; auto. all: apply alike_data; auto.
Qed.

Lemma hh_point_alike : forall n0 n1 n2 P F Fm e e' x, alike n0 n1 n2 e e' ->
  same_outcome (alike n0 n1 n2) (hh_point P F Fm e x) (hh_point P F Fm e' x).
Proof.
  intros n0 n1 n2 P F Fm e e' x H. pose proof H as (H1 & H2 & H3 & H4 & H5 & H6 & H7). unfold hh_point. rewrite H4, H5.
  repeat alike_step; cbn [same_outcome]; auto. all: apply alike_data; auto.
  all: match goal with |- laid_out (if ?b then _ else _) _ _ _ => destruct b end; auto using plus_laid_out.
Qed.

Lemma L_stamp_alike : forall n0 n1 n2 P F size mode e e' x, alike n0 n1 n2 e e' ->
  same_outcome (alike n0 n1 n2) (L_stamp P F size mode e x) (L_stamp P F size mode e' x).
Proof.
  intros n0 n1 n2 P F size mode e e' x H. pose proof H as (H1 & H2 & H3 & H4 & H5 & H6 & H7). unfold L_stamp, path_fuel. rewrite H4, H5.
  repeat alike_step; cbn [same_outcome]; auto. all: apply alike_data; auto.
Qed.

Lemma W2c_stamp_alike : forall n0 n1 n2 P C Ce Fm F mode e e' x, alike n0 n1 n2 e e' ->
  same_outcome (alike n0 n1 n2) (W2c_stamp P C Ce Fm F mode e x) (W2c_stamp P C Ce Fm F mode e' x).
Proof.
  intros n0 n1 n2 P C Ce Fm F mode e e' x H. pose proof H as (H1 & H2 & H3 & H4 & H5 & H6 & H7). unfold W2c_stamp, path_fuel. rewrite H4, H5.
  repeat alike_step; cbn [same_outcome]; auto. all: apply alike_data; auto.
Qed.

Lemma add_alike : forall asrt n0 n1 n2 e e' c, alike n0 n1 n2 e e' -> same_outcome (alike n0 n1 n2) (add asrt e c) (add asrt e' c).
Proof.
  intros asrt n0 n1 n2 e e' c H. pose proof H as (H1 & H2 & H3 & H4 & H5 & H6 & H7).
  destruct c as [f|f m|f g m|f g m|w f m|cl ce f m mode|f m|f mode]; cbn [add];
    [unfold mean|unfold mean_masked|unfold S2|unfold C2|unfold W2|unfold W2c|unfold heightheight|unfold L]; unfold unlocked, roi_ok, e_pad; rewrite ?H1, ?H2, ?H3, ?H4, ?H5.
  - do 3 alike_step. pose proof (plus0_alike (e_second e) (e_second e') (qsum (map (fun x => x * x)%Qc (i_vals f))) n0 n1 n2 H6 H7) as X.
    destruct (plus0 (e_second e) _), (plus0 (e_second e') _); cbn [same_outcome bind] in *; try contradiction; auto.
    alike_step. cbn [same_outcome]. apply alike_data; try tauto. apply alike_stat; auto.
  - do 4 alike_step. alike_step; [cbn [same_outcome]; auto|]. cbv zeta. alike_step.
    match goal with |- same_outcome _ (bind (plus0 _ ?v) _) _ => pose proof (plus0_alike (e_second e) (e_second e') v n0 n1 n2 H6 H7) as X end.
    destruct (plus0 (e_second e) _), (plus0 (e_second e') _); cbn [same_outcome bind] in *; try contradiction; auto.
    alike_step. cbn [same_outcome]. apply alike_data; try tauto. apply alike_stat; auto.
  - repeat alike_step. apply foldM_alike; [intros; apply S2_point_alike; auto|apply alike_stat; auto].
  - repeat alike_step. apply foldM_alike; [intros; apply C2_point_alike; auto|apply alike_stat; auto].
  - repeat alike_step. apply foldM_alike; [intros; apply W2_point_alike; auto|apply alike_stat; auto].
  - repeat alike_step. apply foldM_alike; [intros; apply W2c_stamp_alike; auto|apply alike_stat; auto].
  - repeat alike_step. apply foldM_alike; [intros; apply hh_point_alike; auto|apply alike_stat; auto].
  - repeat alike_step. apply foldM_alike; [intros; apply L_stamp_alike; auto|apply alike_stat; auto].
Qed.

Lemma ensemble_alike : forall asrt roi per var var',
  match ensemble asrt roi per var, ensemble asrt roi per var' with
  | Ok e, Ok e' => exists n0 n1 n2, alike n0 n1 n2 e e'
  | Throw, Throw | UB, UB | NoFuel, NoFuel => True
  | _, _ => False
  end.
Proof.
  intros asrt roi per var var'. unfold ensemble. destruct (assertb _ _); cbn [bind]; auto. destruct (shape3 roi) as [[[n0 n1] n2]| | |]; cbn [bind]; auto.
  exists n0, n1, n2. unfold alike. cbn. assert (X : laid_out (tab n0 n1 n2 (fun _ _ _ => 0%Qc)) n0 n1 n2).
  { unfold laid_out, tab. cbn [d0 d1 d2 dat]. rewrite map_length, zseq_length. auto. }
  auto 10.
Qed.

Lemma run_alike : forall asrt n0 n1 n2 cs e e', alike n0 n1 n2 e e' -> same_outcome (alike n0 n1 n2) (run asrt cs e) (run asrt cs e').
Proof. intros. unfold run. apply foldM_alike; auto. intros. apply add_alike; auto. Qed.

Lemma alike_result : forall n0 n1 n2 e e', alike n0 n1 n2 e e' ->
  data_first e' = data_first e /\ norm e' = norm e /\ result e' = result e.
Proof. intros n0 n1 n2 e e' (H1 & H2 & H3 & H4 & H5 & H6 & H7). unfold data_first, norm, result. rewrite H1, H4, H5. auto. Qed.

(** Over any history, also one that fails. *)
Lemma flag_irrelevant : forall asrt roi per var var' cs,
  same_outcome same_average
    (e0 <- ensemble asrt roi per var ;; run asrt cs e0) (e0 <- ensemble asrt roi per var' ;; run asrt cs e0).
Proof.
  intros asrt roi per var var' cs. pose proof (ensemble_alike asrt roi per var var') as H.
  destruct (ensemble asrt roi per var) as [e| | |], (ensemble asrt roi per var') as [e'| | |]; cbn [bind same_outcome]; try contradiction; auto.
  destruct H as (n0 & n1 & n2 & H). pose proof (run_alike asrt n0 n1 n2 cs e e' H) as X.
  destruct (run asrt cs e), (run asrt cs e'); cbn [same_outcome] in *; try contradiction; auto. eapply alike_result; eauto.
Qed.

Lemma single_fresh : forall asrt roi per var c,
  same_outcome eq (single asrt roi per c) (e <- fresh asrt roi per var c ;; Ok (result e)).
Proof.
  intros asrt roi per var c. unfold single, fresh. pose proof (ensemble_alike asrt roi per true var) as H.
  destruct (ensemble asrt roi per true) as [e| | |], (ensemble asrt roi per var) as [e'| | |]; cbn [bind same_outcome]; try contradiction; auto.
  destruct H as (n0 & n1 & n2 & H). pose proof (add_alike asrt n0 n1 n2 e e' c H) as X.
  destruct (add asrt e c), (add asrt e' c); cbn [same_outcome bind] in *; try contradiction; auto. symmetry. eapply alike_result; eauto.
Qed.

Lemma single_is_fresh : forall asrt roi per var c, single asrt roi per c = (e <- fresh asrt roi per var c ;; Ok (result e)).
Proof.
  intros. pose proof (single_fresh asrt roi per var c) as H. destruct (single asrt roi per c), (bind (fresh asrt roi per var c) _); cbn in H; try contradiction; subst; auto.
Qed.

(** ** The exact average and variance *)
Lemma average_between : forall l lo hi, 1 <= lenZ l -> (forall q, In q l -> lo <= q <= hi)%Qc -> (lo <= average l <= hi)%Qc.
Proof.
  intros l lo hi HN HV. assert (P : (0 < zq (lenZ l))%Qc) by (rewrite <- zq_0; apply zq_lt; lia).
  assert (S : (lo * zq (lenZ l) <= sum_over l (fun x => x) <= hi * zq (lenZ l))%Qc).
  { clear P HN. induction l as [|q l IH]; [unfold lenZ, sum_over; cbn [length fold_right]; change (zq (Z.of_nat 0)) with 0%Qc; rewrite !Qcmult_0_r; split; apply Qcle_refl|].
    destruct IH as [I1 I2]; [intros; apply HV; right; auto|]. destruct (HV q (or_introl eq_refl)) as [V1 V2].
    unfold lenZ in *. cbn [length]. rewrite Nat2Z.inj_succ. unfold Z.succ. rewrite zq_plus. change (zq 1) with 1%Qc.
    unfold sum_over in *. cbn [fold_right]. rewrite !Qcmult_plus_distr_r, !Qcmult_1_r. rewrite (Qcplus_comm _ lo), (Qcplus_comm _ hi).
    split; apply Qcplus_le_compat; auto. }
  unfold average. destruct S as [S1 S2].
  assert (D : forall x, (x * zq (lenZ l) / zq (lenZ l))%Qc = x).
  { intros x. unfold Qcdiv. rewrite <- Qcmult_assoc, Qcmult_inv_r, Qcmult_1_r; auto. intros E. rewrite E in P. exact (Qclt_not_eq _ _ P eq_refl). }
  rewrite <- (D lo), <- (D hi). split; apply div_mono; auto.
Qed.

Lemma exact_range : forall asrt roi per var e0 cs lo hi, Forall (fun n => n = 1) roi -> (length roi <= 3)%nat ->
  ensemble asrt roi per var = Ok e0 -> (forall c, In c cs -> mean_call c) ->
  let l := flat_map mean_values cs in
  (forall q, In q l -> lo <= q <= hi)%Qc ->
  exists e, run asrt cs e0 = Ok e /\
    (1 <= lenZ l -> exists m, result e = [Exact m] /\ (lo <= m <= hi)%Qc) /\
    (2 <= lenZ l -> exists v, variance e = Ok [Exact v] /\ (0 <= v)%Qc).
Proof.
  intros asrt roi per var e0 cs lo hi H1 H2 HE HC l HV. destruct (mean_run asrt roi per var e0 cs H1 H2 HE HC) as (e & R & M & V).
  exists e. split; [exact R|]. split; intros HN.
  - exists (average l). split; [apply M; exact HN|]. apply average_between; auto.
  - exists (sample_variance l). split; [apply V; exact HN|]. destruct (sum_of_squares_nonneg l); [auto|lia].
Qed.
