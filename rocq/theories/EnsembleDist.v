(** * EnsembleDist: proofs of C32, C33 *)

From Coq Require Import ZArith QArith Qcanon List Bool Lia Qreals Reals Lra.
From Verif Require Import Base BaseLemmas Array3 Array3Lemmas Path SpecCluster SpecDilate SpecPath DilateTop Ensemble SpecEnsemble
  EnsembleSums EnsembleLin EnsembleWindow EnsembleTop EnsembleAdd EnsembleRun.
Import ListNotations.
Open Scope Z_scope.

Lemma reachable_ok : forall asrt roi per var e, Forall (fun n => 0 <= n) roi -> reachable asrt roi per var e ->
  exists k0 k1 k2, shape3 roi = Ok (k0, k1, k2) /\ (length roi <= 3)%nat /\ okE per var roi k0 k1 k2 e.
Proof.
  intros asrt roi per var e HR (e0 & cs & HE & H). destruct (ensemble_inv _ _ _ _ _ HE) as (k0 & k1 & k2 & HK & HL).
  exists k0, k1, k2. split; auto. split; auto.
  destruct (run_data asrt per var roi k0 k1 k2 HR HK e0 HE cs e0 e (proj1 (ok0 asrt per var roi k0 k1 k2 HR HK e0 HE)) H) as (O & _). exact O.
Qed.

Lemma padding : forall n, 1 <= n < 2 ^ 62 -> fst (pad_axis n) + snd (pad_axis n) = n - 1 /\ fst (pad_axis n) <= snd (pad_axis n) <= fst (pad_axis n) + 1.
Proof. intros n H. rewrite pad_axis_eq by auto. cbn [fst snd]. Z.to_euclidean_division_equations. lia. Qed.

Lemma linspace_eq : forall n k, 1 <= n < 2 ^ 62 -> 0 <= k < n -> linspace (fst (pad_axis n)) (snd (pad_axis n)) n k = zq (k - (n - 1) / 2).
Proof.
  intros n k Hn Hk. pose proof (padding n Hn) as [HP _]. unfold linspace. replace (snd (pad_axis n) - - fst (pad_axis n)) with (n - 1) by lia.
  rewrite pad_axis_eq by auto. cbn [fst]. rewrite (zq_sub k ((n - 1) / 2)), (zq_opp ((n - 1) / 2)). destruct (Z.eq_dec n 1) as [->|N1].
  - replace k with 0 by lia. change (1 - 1) with 0. change (0 / 2) with 0. apply Qc_is_canon. reflexivity.
  - replace (Z.max 1 (n - 1)) with (n - 1) by lia. assert (N0 : zq (n - 1) <> 0%Qc). { rewrite <- zq_0. intros E. apply zq_inj in E. lia. }
    generalize dependent (zq (n - 1)). intros c N0. generalize (zq ((n - 1) / 2)) (zq k). intros a b. field. auto.
Qed.

Lemma distance_axis_ok : forall asrt per var roi k0 k1 k2 e axis, okE per var roi k0 k1 k2 e -> shape3 roi = Ok (k0, k1, k2) ->
  Forall (fun n => 1 <= n < 2 ^ 62) roi -> 0 <= axis < lenZ roi ->
  exists d, distance_axis asrt e axis = Ok d /\ lenZ d = zprod roi /\
    forall r, pixel roi r -> qn d r = zq (nth (Z.to_nat axis) (offset roi r) 0%Z).
Proof.
  intros asrt per var roi k0 k1 k2 e axis HO HK HF HA. unfold distance_axis. rewrite (ok_roi _ _ _ _ _ _ _ HO), (ok_pad _ _ _ _ _ _ _ HO).
  replace (axis <? lenZ roi) with true by lia. replace (assertb asrt true) with (Ok tt) by (destruct asrt; reflexivity). rewrite bind_Ok.
  destruct HO as [_ _ _ (A0 & A1 & A2 & _) _ _]. rewrite A0, A1, A2. clear A0 A1 A2. unfold pad_width. cbv zeta. unfold lenZ in *.
  assert (TL : forall f, 0 <= k0 -> 0 <= k1 -> 0 <= k2 -> lenZ (dat (tab k0 k1 k2 (f : Z -> Z -> Z -> Qc))) = k0 * k1 * k2).
  { intros f H0 H1 H2. apply (tab_dims Qc k0 k1 k2 f H0 H1 H2). } unfold lenZ in TL.
  destruct roi as [|a [|b [|c [|? ?]]]]; cbn [shape3] in HK; try discriminate HK; injection HK as E0 E1 E2; subst k0 k1 k2;
    repeat match goal with H : Forall _ (_ :: _) |- _ => inversion H; clear H; subst end; cbn [length] in *; change (Z.of_nat 1) with 1 in *; change (Z.of_nat 2) with 2 in *; change (Z.of_nat 3) with 3 in *.
  - lia.
  - assert (axis = 0) by lia. subst. change (atleast_3d_axis 1 0) with 1. cbn [Z.to_nat nth]. eexists. split; [reflexivity|]. split; [rewrite TL by lia; cbn [zprod]; lia|].
    intros r Hr. unfold pixel in Hr. cbn [zprod] in Hr. unfold qn. rewrite nth_tab by lia. cbn beta. rewrite linspace_eq by (first [assumption | rewrite Z.div_1_r, Z.mod_small; lia]).
    unfold offset, diff, anchor. cbn [coords zprod map combine nth fst snd]. rewrite Z.div_1_r, Z.mod_small by lia. reflexivity.
  - assert (C : axis = 0 \/ axis = 1) by lia. destruct C as [-> | ->].
    + change (atleast_3d_axis 2 0) with 0. cbn [Z.to_nat nth]. eexists. split; [reflexivity|]. split; [rewrite TL by lia; cbn [zprod]; lia|].
      intros r Hr. unfold pixel in Hr. cbn [zprod] in Hr. unfold qn. rewrite nth_tab by lia. cbn beta.
      rewrite linspace_eq by (first [assumption | split; [apply Z.div_pos; lia|apply Z.div_lt_upper_bound; lia]]).
      unfold offset, diff, anchor. cbn [coords zprod map combine nth fst snd]. reflexivity.
    + change (atleast_3d_axis 2 1) with 1. cbn [Z.to_nat nth]. eexists. split; [reflexivity|]. split; [rewrite TL by lia; cbn [zprod]; lia|].
      intros r Hr. unfold pixel in Hr. cbn [zprod] in Hr. unfold qn. rewrite nth_tab by lia. cbn beta.
      rewrite linspace_eq by (first [assumption | apply Z.mod_pos_bound; lia]).
      unfold offset, diff, anchor. cbn [coords zprod map combine nth fst snd]. rewrite Z.mul_1_r, !Z.div_1_r. reflexivity.
  - assert (C : axis = 0 \/ axis = 1 \/ axis = 2) by lia. destruct C as [-> | [-> | ->]].
    + change (atleast_3d_axis 3 0) with 0. cbn [Z.to_nat nth]. eexists. split; [reflexivity|]. split; [rewrite TL by lia; cbn [zprod]; lia|].
      intros r Hr. unfold pixel in Hr. cbn [zprod] in Hr. unfold qn. rewrite nth_tab by lia. cbn beta.
      rewrite linspace_eq by (first [assumption | split; [apply Z.div_pos; nia|apply Z.div_lt_upper_bound; nia]]).
      unfold offset, diff, anchor. cbn [coords zprod map combine nth fst snd]. rewrite !Z.mul_1_r. reflexivity.
    + change (atleast_3d_axis 3 1) with 1. cbn [Z.to_nat nth]. eexists. split; [reflexivity|]. split; [rewrite TL by lia; cbn [zprod]; lia|].
      intros r Hr. unfold pixel in Hr. cbn [zprod] in Hr. unfold qn. rewrite nth_tab by lia. cbn beta.
      rewrite linspace_eq by (first [assumption | apply Z.mod_pos_bound; lia]).
      unfold offset, diff, anchor. cbn [coords zprod map combine nth fst snd]. rewrite !Z.mul_1_r.
      f_equal. f_equal. rewrite (Z.mul_comm b c), Z.rem_mul_r by lia. rewrite (Z.mul_comm c (r / c mod b)), Z.div_add by lia. rewrite (Z.div_small (r mod c)) by (apply Z.mod_pos_bound; lia). change (Pos.to_nat 1) with 1%nat. cbn match. lia.
    + change (atleast_3d_axis 3 2) with 2. cbn [Z.to_nat nth]. eexists. split; [reflexivity|]. split; [rewrite TL by lia; cbn [zprod]; lia|].
      intros r Hr. unfold pixel in Hr. cbn [zprod] in Hr. unfold qn. rewrite nth_tab by lia. cbn beta.
      rewrite linspace_eq by (first [assumption | apply Z.mod_pos_bound; lia]).
      unfold offset, diff, anchor. change (Z.to_nat 2) with 2%nat. cbn [coords zprod map combine nth fst snd]. rewrite !Z.mul_1_r, !Z.div_1_r.
      f_equal. f_equal. rewrite (Z.mul_comm b c), Z.rem_mul_r by lia. rewrite (Z.mul_comm c (r / c mod b)), Z.mod_add by lia. rewrite Z.mod_mod by lia. reflexivity.
Qed.

Lemma nth_offset : forall roi r a, (a < length roi)%nat -> nth a (offset roi r) 0 = nth a (coords roi r) 0 - (nth a roi 0 - 1) / 2.
Proof.
  intros roi r a. unfold offset, diff, anchor. revert r a. induction roi as [|n roi IH]; intros r a Ha; [cbn in Ha; lia|]. cbn [coords map combine].
  destruct a as [|a]; cbn [nth fst snd]; auto. apply IH. cbn in Ha. lia.
Qed.

(** C32 *)
Lemma distance_axis_reach : forall asrt per var roi e axis, reachable asrt roi per var e -> Forall (fun n => 1 <= n < 2 ^ 62) roi -> 0 <= axis < lenZ roi ->
  exists d, distance_axis asrt e axis = Ok d /\ lenZ d = zprod roi /\
    forall r, pixel roi r -> let k := nth (Z.to_nat axis) (coords roi r) 0 in let n := nth (Z.to_nat axis) roi 0 in
      qn d r = zq (k - fst (pad_axis n)) /\ (qn d r = 0%Qc <-> k = (n - 1) / 2).
Proof.
  intros asrt per var roi e axis HE HF HA. assert (HR : Forall (fun n => 0 <= n) roi) by (eapply Forall_impl; [|exact HF]; cbn; intros; lia).
  destruct (reachable_ok _ _ _ _ _ HR HE) as (k0 & k1 & k2 & HK & HL & HO).
  destruct (distance_axis_ok asrt per var roi k0 k1 k2 e axis HO HK HF HA) as (d & E & L & V). exists d. split; auto. split; auto. intros r Hr k n.
  assert (LA : (Z.to_nat axis < length roi)%nat) by (unfold lenZ in HA; lia).
  assert (HN : 1 <= n < 2 ^ 62) by (unfold n; rewrite Forall_forall in HF; apply HF, nth_In; auto).
  rewrite (V r Hr), nth_offset by auto. fold k n. rewrite pad_axis_eq by auto. cbn [fst]. split; auto. rewrite <- zq_0. split; intros EQ; [apply zq_inj in EQ; lia|f_equal; lia].
Qed.

Lemma distance_axis_throw : forall roi per var e axis, Forall (fun n => 0 <= n) roi -> reachable true roi per var e -> lenZ roi <= axis -> distance_axis true e axis = Throw.
Proof.
  intros roi per var e axis HR HE HA. destruct (reachable_ok _ _ _ _ _ HR HE) as (k0 & k1 & k2 & HK & HL & HO). unfold distance_axis.
  rewrite (ok_roi _ _ _ _ _ _ _ HO). replace (axis <? lenZ roi) with false by lia. reflexivity.
Qed.

(** ** C33 *)

Lemma sum_squares_ok : forall asrt per var roi k0 k1 k2 e h, okE per var roi k0 k1 k2 e -> shape3 roi = Ok (k0, k1, k2) ->
  Forall (fun n => 1 <= n < 2 ^ 62) roi ->
  exists s, sum_squares asrt e h = Ok s /\ lenZ s = zprod roi /\
    forall r, pixel roi r -> qn s r = sum_over (zrange 0 (lenZ roi)) (fun a => (zq (nth (Z.to_nat a) (offset roi r) 0%Z) * h a) * (zq (nth (Z.to_nat a) (offset roi r) 0%Z) * h a))%Qc.
Proof.
  intros asrt per var roi k0 k1 k2 e h HO HK HF. unfold sum_squares. rewrite (ok_roi _ _ _ _ _ _ _ HO).
  assert (ZP : 0 <= zprod roi). { pose proof (zprod_pos roi). assert (Forall (fun n => 0 < n) roi) by (eapply Forall_impl; [|exact HF]; cbn; intros; lia). specialize (H H0). lia. }
  assert (G : forall l acc, (forall a, In a l -> 0 <= a < lenZ roi) -> lenZ acc = zprod roi ->
    exists s, foldM (fun acc i => d <- distance_axis asrt e i ;; Ok (map (fun x : Qc * Qc => fst x + (snd x * h i) * (snd x * h i))%Qc (combine acc d))) l acc = Ok s /\
      lenZ s = zprod roi /\ forall r, pixel roi r -> qn s r = (qn acc r + sum_over l (fun a => (zq (nth (Z.to_nat a) (offset roi r) 0%Z) * h a) * (zq (nth (Z.to_nat a) (offset roi r) 0%Z) * h a)))%Qc).
  { induction l as [|a l IH]; intros acc HI HL; cbn [foldM].
    - exists acc. split; auto. split; auto. intros. cbn. ring.
    - destruct (distance_axis_ok asrt per var roi k0 k1 k2 e a HO HK HF (HI a (or_introl eq_refl))) as (d & E & L & V). rewrite E, !bind_Ok.
      set (acc' := map _ _). assert (EL : length acc = length d) by (unfold lenZ in *; lia).
      assert (L' : lenZ acc' = zprod roi). { unfold acc', lenZ. rewrite map_length, combine_length. unfold lenZ in HL. lia. }
      destruct (IH acc') as (s & Es & Ls & Vs); auto; [intros; apply HI; right; auto|]. exists s. split; auto. split; auto. intros r Hr. rewrite (Vs r Hr).
      assert (EA : qn acc' r = (qn acc r + (zq (nth (Z.to_nat a) (offset roi r) 0%Z) * h a) * (zq (nth (Z.to_nat a) (offset roi r) 0%Z) * h a))%Qc).
      { rewrite <- (V r Hr). unfold acc', qn. set (G := fun x : Qc * Qc => (fst x + snd x * h a * (snd x * h a))%Qc).
        rewrite (nth_indep _ 0%Qc (G (0%Qc, 0%Qc))) by (rewrite map_length, combine_length; unfold pixel in Hr; unfold lenZ in HL; lia).
        rewrite map_nth, nth_combine by auto. reflexivity. }
      rewrite EA. cbn [sum_over fold_right]. unfold sum_over. ring. }
  destruct (G (zrange 0 (lenZ roi)) (repeat 0%Qc (Z.to_nat (zprod roi)))) as (s & Es & Ls & Vs).
  - intros a IN. apply zrange_In in IN. lia.
  - unfold lenZ. rewrite repeat_length. lia.
  - exists s. split; auto. split; auto. intros r Hr. rewrite (Vs r Hr). unfold qn at 1. rewrite nth_repeat. ring.
Qed.

Lemma squares_nonneg : forall (l : list Z) (F : Z -> Qc), (0 <= sum_over l (fun a => F a * F a))%Qc.
Proof. intros l F. apply sum_nonneg. intros. apply sq_nonneg. Qed.

Lemma root_ok : forall q, (0 <= q)%Qc -> root (Exact q) = Root q.
Proof.
  intros q H. unfold root. destruct (Qclt_b q 0) eqn:E; auto. apply Qclt_b_iff in E. exfalso. apply (Qcle_not_lt _ _ H E).
Qed.

Lemma roots_ok : forall roi s h, lenZ s = zprod roi -> (forall r, pixel roi r -> qn s r = length2 roi h r) ->
  let d := map (fun q => root (Exact q)) s in
  lenZ d = zprod roi /\ forall r, pixel roi r -> nth (Z.to_nat r) d NaN = Root (length2 roi h r).
Proof.
  intros roi s h L V d. split; [unfold d, lenZ; rewrite map_length; auto|]. intros r Hr. unfold d.
  rewrite (nth_indep _ NaN (root (Exact 0%Qc))) by (rewrite map_length; unfold pixel in Hr; unfold lenZ in L; lia).
  rewrite (map_nth (fun q => root (Exact q))). fold (qn s r). rewrite (V r Hr). apply root_ok. apply squares_nonneg.
Qed.

Lemma distance_reach : forall asrt per var roi e, reachable asrt roi per var e -> Forall (fun n => 1 <= n < 2 ^ 62) roi ->
  exists d, distance asrt e = Ok d /\ lenZ d = zprod roi /\ forall r, pixel roi r -> nth (Z.to_nat r) d NaN = Root (length2 roi (fun _ => 1%Qc) r).
Proof.
  intros asrt per var roi e HE HF. assert (HR : Forall (fun n => 0 <= n) roi) by (eapply Forall_impl; [|exact HF]; cbn; intros; lia).
  destruct (reachable_ok _ _ _ _ _ HR HE) as (k0 & k1 & k2 & HK & HL & HO).
  destruct (sum_squares_ok asrt per var roi k0 k1 k2 e (fun _ => 1%Qc) HO HK HF) as (s & E & L & V). unfold distance. rewrite E, bind_Ok. eexists. split; [reflexivity|].
  apply (roots_ok roi s (fun _ => 1%Qc)); auto.
Qed.

Lemma mapM_vget : forall (h : list Qc) l, (forall i, In i l -> 0 <= i < lenZ h) -> exists x, mapM (vget h) l = Ok x.
Proof.
  intros h l. induction l as [|i l IH]; intros H; cbn [mapM]; [eauto|]. rewrite vget_qn by (apply H; left; auto). rewrite bind_Ok.
  destruct IH as [x ->]; [intros; apply H; right; auto|]. rewrite bind_Ok. eauto.
Qed.

Lemma distance_h_reach : forall asrt per var roi e h, reachable asrt roi per var e -> Forall (fun n => 1 <= n < 2 ^ 62) roi -> lenZ h = lenZ roi ->
  exists d, distance_h asrt e h = Ok d /\ lenZ d = zprod roi /\ forall r, pixel roi r -> nth (Z.to_nat r) d NaN = Root (length2 roi (qn h) r).
Proof.
  intros asrt per var roi e h HE HF HH. assert (HR : Forall (fun n => 0 <= n) roi) by (eapply Forall_impl; [|exact HF]; cbn; intros; lia).
  destruct (reachable_ok _ _ _ _ _ HR HE) as (k0 & k1 & k2 & HK & HL & HO).
  destruct (sum_squares_ok asrt per var roi k0 k1 k2 e (fun i => nth (Z.to_nat i) h 0%Qc) HO HK HF) as (s & E & L & V). unfold distance_h. rewrite (ok_roi _ _ _ _ _ _ _ HO).
  replace (lenZ roi =? lenZ h) with true by lia. replace (assertb asrt true) with (Ok tt) by (destruct asrt; reflexivity). rewrite bind_Ok.
  destruct (mapM_vget h (zrange 0 (lenZ roi))) as [x Ex]; [intros i IN; apply zrange_In in IN; lia|]. rewrite Ex, E, !bind_Ok. eexists. split; [reflexivity|].
  apply (roots_ok roi s (qn h)); auto.
Qed.

Lemma distance_h_axis_reach : forall asrt per var roi e h axis, reachable asrt roi per var e -> Forall (fun n => 1 <= n < 2 ^ 62) roi -> lenZ h = lenZ roi -> 0 <= axis < lenZ roi ->
  exists d, distance_h_axis asrt e h axis = Ok d /\ lenZ d = zprod roi /\ forall r, pixel roi r -> qn d r = (zq (nth (Z.to_nat axis) (offset roi r) 0%Z) * qn h axis)%Qc.
Proof.
  intros asrt per var roi e h axis HE HF HH HA. assert (HR : Forall (fun n => 0 <= n) roi) by (eapply Forall_impl; [|exact HF]; cbn; intros; lia).
  destruct (reachable_ok _ _ _ _ _ HR HE) as (k0 & k1 & k2 & HK & HL & HO).
  destruct (distance_axis_ok asrt per var roi k0 k1 k2 e axis HO HK HF HA) as (d & E & L & V). unfold distance_h_axis. rewrite (ok_roi _ _ _ _ _ _ _ HO).
  replace (lenZ roi =? lenZ h) with true by lia. replace (assertb asrt true) with (Ok tt) by (destruct asrt; reflexivity). rewrite E, vget_qn, !bind_Ok by lia.
  eexists. split; [reflexivity|]. split; [unfold lenZ in *; rewrite map_length; auto|]. intros r Hr. rewrite <- (V r Hr). unfold qn at 1.
  rewrite (nth_indep _ 0%Qc (0 * qn h axis)%Qc) by (rewrite map_length; unfold pixel in Hr; unfold lenZ in L; lia). rewrite (map_nth (fun x => x * qn h axis)%Qc). reflexivity.
Qed.

(** As a real number. *)
Lemma root_real : forall q, (0 <= q)%Qc -> (0 <= real (Root q) /\ real (Root q) * real (Root q) = Q2R (this q))%R.
Proof.
  intros q H. assert (P : (0 <= Q2R (this q))%R).
  { replace 0%R with (Q2R 0) by (unfold Q2R; cbn; lra). apply Qle_Rle. exact H. }
  cbn [real]. split; [apply sqrt_pos|apply sqrt_sqrt; auto].
Qed.
Lemma length2_nonneg : forall roi h r, (0 <= length2 roi h r)%Qc.
Proof. intros. unfold length2. apply squares_nonneg. Qed.
Lemma length2_real : forall roi h r, (0 <= real (Root (length2 roi h r)) /\ real (Root (length2 roi h r)) * real (Root (length2 roi h r)) = Q2R (this (length2 roi h r)))%R.
Proof. intros. apply root_real, length2_nonneg. Qed.
