(** * EnsembleFloatOrder: does the order of the realizations matter in floating point? *)

From Coq Require Import ZArith QArith Qcanon Qreals Reals List Bool Lia Permutation.
From Flocq Require Import Core BinarySingleNaN.
From Verif Require Import Base BaseLemmas Array3 Path Ensemble SpecCluster SpecEnsemble EnsembleRun Double EnsembleFloat SpecDouble DoubleProofs EnsembleFloatProofs EnsembleFloatTop EnsembleFloatMask.
Import ListNotations.
Open Scope Z_scope.

Lemma zsum_perm : forall l l', Permutation l l' -> zsum l = zsum l'.
Proof. intros l l' H. induction H; cbn [zsum]; lia. Qed.

Lemma exactly_same : forall K q x y, exactly K q x -> exactly K q y -> same_double x y.
Proof.
  intros K q x y (F1 & z & E1 & R1 & _) (F2 & w & E2 & R2 & _). subst q. apply zq_inj in E2. subst w.
  destruct (Z.eq_dec z 0) as [->|N].
  - right. destruct x; try discriminate; [|exfalso; apply (F2R_neq_0 radix2 {| Fnum := cond_Zopp s (Zpos m); Fexp := e |}); [destruct s; discriminate|exact R1]].
    destruct y; try discriminate; [|exfalso; apply (F2R_neq_0 radix2 {| Fnum := cond_Zopp s0 (Zpos m); Fexp := e |}); [destruct s0; discriminate|exact R2]].
    eauto.
  - left. apply B2R_inj; try congruence.
    + destruct x; try discriminate; auto. exfalso. cbn in R1. apply (eq_IZR 0) in R1. congruence.
    + destruct y; try discriminate; auto. exfalso. cbn in R2. apply (eq_IZR 0) in R2. congruence.
Qed.

Lemma sim_same : forall K K' e e' x y, dat e = dat e' -> d0 e = d0 e' -> d1 e = d1 e' -> d2 e = d2 e' -> sim (exactly K) e x -> sim (exactly K') e' y -> sim same_double x y.
Proof.
  intros K K' e e' x y ED E0 E1 E2 H H'. apply (sim_weaken _ (Z.max K K')) in H; [|lia]. apply (sim_weaken _ (Z.max K K')) in H'; [|lia].
  destruct H as (A0 & A1 & A2 & F). destruct H' as (B0 & B1 & B2 & F'). repeat split; try congruence.
  rewrite <- ED in F'. remember (dat e) as l eqn:Q. remember (dat x) as u eqn:Q1. remember (dat y) as v eqn:Q2. clear - F F'. revert v F'.
  induction F as [|a b l u Hab F IH]; intros v F'; inversion F'; subst; constructor; auto. eapply exactly_same; eauto.
Qed.

Lemma order_of_integers : forall L M asrt roi per var cs ds ds' x,
  library L -> root_of_zero L -> 1 <= M -> Forall (fun n => 0 <= n) roi ->
  Forall2 same_call cs ds -> Forall (integral_call M) cs -> all_calls roi var M cs <= 2 ^ 53 ->
  one_measure cs -> Permutation ds ds' ->
  (x0 <- fensemble asrt roi per var ;; frun L asrt ds x0) = Ok x ->
  exists x', (x0 <- fensemble asrt roi per var ;; frun L asrt ds' x0) = Ok x' /\ same_fdata L x x'.
Proof.
  intros L M asrt roi per var cs ds ds' x HL H0 HM HR HC HI HB HS HP HX.
  destruct (@Permutation_Forall2 _ _ _ _ _ _ HP (Forall2_flip _ _ _ _ _ HC)) as (cs' & HP' & HC'). apply Forall2_flip in HC'.
  assert (HI' : Forall (integral_call M) cs') by (eapply Permutation_Forall; eauto).
  assert (EA : all_calls roi var M cs' = all_calls roi var M cs) by (unfold all_calls; symmetry; apply zsum_perm, Permutation_map; exact HP').
  pose proof (histories_sim L M asrt roi per var cs ds HL HM HR HC HI HB) as S1.
  pose proof (histories_sim L M asrt roi per var cs' ds' HL HM HR HC' HI' ltac:(lia)) as S2.
  rewrite HX in S1. destruct (ensemble asrt roi per var) as [e0| | |] eqn:EE; cbn [bind] in S1, S2; try contradiction.
  destruct (run asrt cs e0) as [e| | |] eqn:ER; cbn [alike] in S1; try contradiction.
  destruct (add_order asrt roi per var e0 cs cs' e HR EE HS HP' ER) as (e' & ER' & D1 & D2 & D3 & _). rewrite ER' in S2.
  destruct (x0 <- fensemble asrt roi per var ;; frun L asrt ds' x0) as [x'| | |] eqn:EX; cbn [alike] in S2; try contradiction.
  exists x'. split; [reflexivity|]. apply fsim_same; [exact H0|].
  destruct (ensemble_inv _ _ _ _ _ EE) as (k0 & k1 & k2 & HK & _).
  pose proof (ok0 asrt per var roi k0 k1 k2 HR HK e0 EE) as O.
  assert (ES : e_stat e = e_stat e').
  { destruct HS as [s HS].
    assert (G : forall l y, (forall c, In c l -> stat_of c = s) -> run asrt l e0 = Ok y -> e_stat y = match l with [] => Unset | _ => s end).
    { intros l y Hl Hy. destruct l as [|c l] using rev_ind; [cbn in Hy; inversion Hy; subst; exact (proj2 O)|].
      rewrite (run_stat asrt per var roi k0 k1 k2 HR HK e0 EE l e0 y c (proj1 O) Hy), (Hl c) by (apply in_or_app; right; left; reflexivity).
      destruct l; reflexivity. }
    rewrite (G cs e HS ER). rewrite (G cs' e'); auto.
    - destruct cs as [|c cs]; [apply Permutation_nil in HP'; subst; reflexivity|]. destruct cs'; [apply Permutation_sym, Permutation_nil in HP'; discriminate|reflexivity].
    - intros c Hc. apply HS. eapply Permutation_in; [apply Permutation_sym; exact HP'|exact Hc]. }
  pose proof (run_data asrt per var roi k0 k1 k2 HR HK e0 EE cs e0 e (proj1 O) ER) as (O1 & _).
  pose proof (run_data asrt per var roi k0 k1 k2 HR HK e0 EE cs' e0 e' (proj1 O) ER') as (O2 & _).
  destruct O1 as [P1 V1 R1 (X0 & X1 & X2 & _) (Y0 & Y1 & Y2 & _) (Z0 & Z1 & Z2 & _)].
  destruct O2 as [P2 V2 R2 (X0' & X1' & X2' & _) (Y0' & Y1' & Y2' & _) (Z0' & Z1' & Z2' & _)].
  destruct S1 as (T1 & T2 & T3 & T4 & F1 & F2 & F3). destruct S2 as (T1' & T2' & T3' & T4' & F1' & F2' & F3').
  do 4 (split; [congruence|]). unfold data_first, data_second, norm in D1, D2, D3.
  split; [|split]; (eapply sim_same; [| | | |eassumption|eassumption]); congruence.
Qed.

(** Large numbers absorb small ones. *)
Definition d1v (l : list double) : img double := mkimg [Z.of_nat (length l)] l.

Lemma order_matters : forall L asrt,
  let call z := FCallS2 (d1v [done]) (d1v [dz z]) None in
  let outcome ds := x <- (x0 <- fensemble asrt [1] false false ;; frun L asrt ds x0) ;; Ok (map (fun v => B2SF v) (fresult L x)) in
  outcome [call (2 ^ 53); call 1; call (- 2 ^ 53)] = Ok [B2SF dzero] /\
  outcome [call (2 ^ 53); call (- 2 ^ 53); call 1] = Ok [B2SF (ddiv done (dz 3))].
Proof. intros L asrt. destruct asrt; split; vm_compute; reflexivity. Qed.

Lemma order_refuted : forall L asrt, exists ds ds' x x', Permutation ds ds' /\
  (x0 <- fensemble asrt [1] false false ;; frun L asrt ds x0) = Ok x /\
  (x0 <- fensemble asrt [1] false false ;; frun L asrt ds' x0) = Ok x' /\
  fresult L x = [dzero] /\ fresult L x' = [ddiv done (dz 3)].
Proof.
  intros L asrt. destruct (order_matters L asrt) as [H1 H2]. cbv zeta in H1, H2. apply bind_Ok in H1. apply bind_Ok in H2.
  destruct H1 as (x & X1 & X2). destruct H2 as (y & Y1 & Y2).
  assert (G : forall (l : list double) v, map (fun v => B2SF v) l = [B2SF v] -> l = [v]).
  { intros [|a [|b l]] v H; try discriminate. cbn [map] in H. assert (E : B2SF a = B2SF v) by (injection H; auto). apply B2SF_inj in E. subst a. reflexivity. }
  eexists. eexists. exists x, y. split; [|split; [exact X1|split; [exact Y1|split; apply G; assumption]]].
  apply perm_skip, perm_swap.
Qed.
