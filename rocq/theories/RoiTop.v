(** * RoiTop: the size of the region of interest (proofs only) *)

From Coq Require Import ZArith QArith Qcanon List Bool Lia.
From Verif Require Import Base BaseLemmas SpecCluster ClusterGeom ClusterMain Array3 Array3Lemmas Path SpecPath SpecDilate DilateTop
  Ensemble SpecEnsemble EnsembleSums EnsembleLin EnsembleWindow EnsembleTop EnsembleAdd EnsembleRun SpecSymmetry SpecMoved DerivedCluster DerivedDilate DerivedEnsemble
  SpecRoi SpecLineal SpecAxis.
Import ListNotations.
Open Scope Z_scope.

Lemma two_point_pair : forall shape c, Forall (fun n => 1 <= n) shape -> two_point shape c -> pair_call shape c.
Proof.
  intros shape c HN H.
  assert (M2 : forall A (f : img A) m, is_image shape f -> (forall fm gm, m = Some (fm, gm) -> is_mask shape fm /\ is_mask shape gm) ->
                 is_mask shape (fst (mask2 f m)) /\ is_mask shape (snd (mask2 f m))).
  { intros A f m [Hf _] HM. destruct m as [[fm gm]|]; cbn [mask2 fst snd]; [apply HM; auto|]. rewrite Hf. split; apply zeros_mask; auto. }
  assert (M1 : forall A (f : img A) m, is_image shape f -> (forall fm, m = Some fm -> is_mask shape fm) -> is_mask shape (mask1 f m)).
  { intros A f m [Hf _] HM. destruct m as [fm|]; cbn [mask1]; [apply HM; auto|]. rewrite Hf. apply zeros_mask; auto. }
  destruct c; cbn [two_point pair_call] in *; try tauto; intuition auto; apply M2; auto.
Qed.

Lemma roi_one : forall asrt per var roi roi' shape c, shapes per roi shape -> shapes per roi' shape -> two_point shape c ->
  exists e e', fresh asrt roi per var c = Ok e /\ fresh asrt roi' per var c = Ok e' /\
    forall r r', pixel roi r -> pixel roi' r' -> offset roi' r' = offset roi r -> same_at e r e' r'.
Proof.
  intros asrt per var roi roi' shape c HS HS' HC. apply two_point_pair in HC; [|apply HS]. destruct (terms var c) as [[[[fm gm] T1] T2] TN] eqn:ET.
  destruct (pair_call_ok asrt per var roi shape c _ _ _ _ _ HS HC ET) as (e & E & _ & V). destruct (pair_call_ok asrt per var roi' shape c _ _ _ _ _ HS' HC ET) as (e' & E' & _ & V').
  exists e, e'. split; auto. split; auto. intros r r' Hr Hr' HO. destruct (V r Hr) as (A & B & C & D). destruct (V' r' Hr') as (A' & B' & C' & D').
  rewrite HO in *. unfold same_at. rewrite D, D', A, A', B, B', C, C'. auto.
Qed.

(** ** Sequences of calls *)

Lemma ensemble_made : forall asrt roi per var, Forall (fun n => 1 <= n) roi -> (length roi <= 3)%nat -> exists e, ensemble asrt roi per var = Ok e.
Proof.
  intros asrt roi per var HP HL. assert (exists k0 k1 k2, shape3 roi = Ok (k0, k1, k2) /\ 1 <= k0 /\ 1 <= k1 /\ 1 <= k2) as (k0 & k1 & k2 & HK & K).
  { destruct roi as [|a [|b [|c [|d s]]]]; cbn in HL; try lia;
      repeat match goal with HF : Forall _ (_ :: _) |- _ => inversion HF; clear HF; subst end; do 3 eexists; (split; [reflexivity|]); lia. }
  destruct (ensemble_ok asrt roi per var k0 k1 k2 HL HK K) as (e & E & _). eauto.
Qed.

Lemma sum_over_same : forall asrt roi roi' per var (R : Z -> Z -> Prop) (V : ens -> Z -> Qc) cs cs' es es' r r', R r r' -> pixel roi r -> pixel roi' r' ->
  Forall2 (fun c ec => fresh asrt roi per var c = Ok ec) cs es -> Forall2 (fun c ec => fresh asrt roi' per var c = Ok ec) cs' es' ->
  Forall2 (fun c c' => exists e e', fresh asrt roi per var c = Ok e /\ fresh asrt roi' per var c' = Ok e' /\
    forall r r', pixel roi r -> pixel roi' r' -> R r r' -> V e' r' = V e r) cs cs' ->
  sum_over es' (fun x => V x r') = sum_over es (fun x => V x r).
Proof.
  intros asrt roi roi' per var R V cs cs' es es' r r' HR Hr Hr' F F' H. revert es es' F F'. induction H as [|c c' cs cs' (e & e' & E & E' & HV) H IH]; intros es es' F F'; inversion F; inversion F'; subst; [reflexivity|].
  unfold sum_over in *. cbn [fold_right map]. match goal with A : fresh _ roi _ _ c = Ok ?x, B : fresh _ roi' _ _ c' = Ok ?y |- _ => rewrite E in A; rewrite E' in B; injection A as <-; injection B as <- end.
  rewrite (HV r r' Hr Hr' HR). erewrite IH; eauto.
Qed.

Lemma sequences_same : forall asrt roi roi' per var (R : Z -> Z -> Prop) cs cs', Forall (fun n => 1 <= n) roi -> Forall (fun n => 1 <= n) roi' ->
  (length roi <= 3)%nat -> (length roi' <= 3)%nat -> one_measure cs ->
  Forall2 (fun c c' => stat_of c' = stat_of c /\ exists e e', fresh asrt roi per var c = Ok e /\ fresh asrt roi' per var c' = Ok e' /\
    forall r r', pixel roi r -> pixel roi' r' -> R r r' -> same_at e r e' r') cs cs' ->
  exists e0 e0' e e', ensemble asrt roi per var = Ok e0 /\ ensemble asrt roi' per var = Ok e0' /\ run asrt cs e0 = Ok e /\ run asrt cs' e0' = Ok e' /\
    forall r r', pixel roi r -> pixel roi' r' -> R r r' -> same_at e r e' r'.
Proof.
  intros asrt roi roi' per var R cs cs' HP HP' HL HL' [s HM] HF.
  destruct (ensemble_made asrt roi per var HP HL) as (e0 & E0). destruct (ensemble_made asrt roi' per var HP' HL') as (e0' & E0').
  assert (N : Forall (fun n => 0 <= n) roi) by (eapply Forall_impl; [|exact HP]; cbn beta; intros; lia).
  assert (N' : Forall (fun n => 0 <= n) roi') by (eapply Forall_impl; [|exact HP']; cbn beta; intros; lia).
  assert (HM' : forall c, In c cs' -> stat_of c = s).
  { clear -HM HF. induction HF as [|c c' cs cs' (S & _) HF IH]; intros x IN; [destruct IN|]. destruct IN as [<-|IN]; [rewrite S; apply HM; left; auto|].
    apply IH; auto. intros; apply HM; right; auto. }
  destruct (add_runs asrt roi per var e0 cs N E0 (ex_intro _ s HM)) as (e & E).
  { clear -HF. induction HF as [|c c' cs cs' (_ & x & x' & X & _) HF IH]; intros y IN; [destruct IN|]. destruct IN as [<-|IN]; eauto. }
  destruct (add_runs asrt roi' per var e0' cs' N' E0' (ex_intro _ s HM')) as (e' & E').
  { clear -HF. induction HF as [|c c' cs cs' (_ & x & x' & _ & X & _) HF IH]; intros y IN; [destruct IN|]. destruct IN as [<-|IN]; eauto. }
  exists e0, e0', e, e'. do 4 (split; auto).
  destruct (add_sum _ _ _ _ _ _ _ N E0 E) as (_ & es & F & D). destruct (add_sum _ _ _ _ _ _ _ N' E0' E') as (_ & es' & F' & D').
  assert (ST : e_stat e' = e_stat e).
  { destruct (ensemble_inv _ _ _ _ _ E0) as (k0 & k1 & k2 & HK & _). destruct (ensemble_inv _ _ _ _ _ E0') as (l0 & l1 & l2 & HK' & _).
    pose proof (ok0 asrt per var roi k0 k1 k2 N HK e0 E0) as O. pose proof (ok0 asrt per var roi' l0 l1 l2 N' HK' e0' E0') as O'.
    destruct cs as [|c cs] using rev_ind.
    - inversion HF; subst. cbn in E, E'. injection E as <-. injection E' as <-. destruct O as [_ ->], O' as [_ ->]. reflexivity.
    - clear IHcs. apply Forall2_app_inv_l in HF. destruct HF as (l1' & l2' & _ & H2 & ->). destruct l2' as [|c' [|c2 l2']]; inversion H2 as [|? ? ? ? [S _] H3]; subst; [|inversion H3].
      rewrite (run_stat _ _ _ _ _ _ _ N HK e0 E0 _ _ _ _ (proj1 O) E), (run_stat _ _ _ _ _ _ _ N' HK' e0' E0' _ _ _ _ (proj1 O') E'). exact S. }
  intros r r' Hr Hr' HR. destruct (D r Hr) as (D1 & D2 & D3). destruct (D' r' Hr') as (D1' & D2' & D3').
  assert (W : forall V : ens -> Z -> Qc, (forall x y r r', same_at x r y r' -> V y r' = V x r) -> sum_over es' (fun x => V x r') = sum_over es (fun x => V x r)).
  { intros V HV. apply (sum_over_same asrt roi roi' per var R V cs cs' es es' r r'); auto. clear -HF HV.
    induction HF as [|c c' cs cs' (_ & x & x' & X & X' & HX) HF IH]; constructor; auto. exists x, x'. repeat (split; auto). }
  assert (H1 : first_at e' r' = first_at e r) by (rewrite D1, D1'; apply W; intros ? ? ? ? SA; apply SA).
  assert (H2 : second_at e' r' = second_at e r) by (rewrite D2, D2'; apply W; intros ? ? ? ? SA; apply SA).
  assert (H3 : norm_at e' r' = norm_at e r) by (rewrite D3, D3'; apply W; intros ? ? ? ? SA; apply SA).
  split; auto. split; auto. split; auto.
  destruct (ensemble_inv _ _ _ _ _ E0) as (k0 & k1 & k2 & HK & _). destruct (ensemble_inv _ _ _ _ _ E0') as (l0 & l1 & l2 & HK' & _).
  pose proof (ok0 asrt per var roi k0 k1 k2 N HK e0 E0) as O. pose proof (ok0 asrt per var roi' l0 l1 l2 N' HK' e0' E0') as O'.
  destruct (run_data asrt per var roi k0 k1 k2 N HK e0 E0 cs e0 e (proj1 O) E) as (P & _). destruct (run_data asrt per var roi' l0 l1 l2 N' HK' e0' E0' cs' e0' e' (proj1 O') E') as (P' & _).
  rewrite (result_at_eq (e_stat e) per var roi k0 k1 k2 e r), (result_at_eq (e_stat e') per var roi' l0 l1 l2 e' r');
    [|split; auto|eapply pixel_ix; eauto|split; auto|eapply pixel_ix; eauto].
  rewrite ST, H1, H3. reflexivity.
Qed.

Lemma roi_sequence : forall asrt per var roi roi' cs, Forall (fun n => 1 <= n < 2 ^ 62) roi -> Forall (fun n => 1 <= n < 2 ^ 62) roi' ->
  (length roi <= 3)%nat -> (length roi' <= 3)%nat -> one_measure cs ->
  (forall c, In c cs -> exists shape, shapes per roi shape /\ shapes per roi' shape /\ two_point shape c) ->
  exists e0 e0' e e', ensemble asrt roi per var = Ok e0 /\ ensemble asrt roi' per var = Ok e0' /\ run asrt cs e0 = Ok e /\ run asrt cs e0' = Ok e' /\
    forall r r', pixel roi r -> pixel roi' r' -> offset roi' r' = offset roi r -> same_at e r e' r'.
Proof.
  intros asrt per var roi roi' cs HP HP' HL HL' HM HC. apply (sequences_same asrt roi roi' per var (fun r r' => offset roi' r' = offset roi r)); auto;
    try (eapply Forall_impl; [|eassumption]; cbn beta; intros; lia).
  clear HM. induction cs as [|c cs IH]; constructor.
  - split; auto. destruct (HC c (or_introl eq_refl)) as (shape & HS & HS' & T). apply (roi_one asrt per var roi roi' shape c); auto.
  - apply IH. intros; apply HC; right; auto.
Qed.

(** ** A larger region of interest has all offsets of a smaller one *)

Lemma roi_larger : forall roi roi' r, Forall (fun n => 1 <= n) roi -> Forall2 Z.le roi roi' -> pixel roi r -> exists r', pixel roi' r' /\ offset roi' r' = offset roi r.
Proof.
  intros roi roi' r HP HLE Hr.
  assert (IN : inside roi (coords roi r)) by (apply coords_inside; auto; eapply Forall_impl; [|exact HP]; cbn beta; intros; lia).
  assert (X : exists c, inside roi' c /\ diff c (anchor roi') = offset roi r).
  { unfold offset. revert IN. generalize (coords roi r) as c. clear Hr. induction HLE as [|n m roi roi' L HLE IH]; intros [|x c] IN; cbn [inside] in IN; try tauto.
    - exists []. split; [exact I|reflexivity].
    - inversion HP; subst. destruct (IH ltac:(auto) c (proj2 IN)) as (c' & I' & D'). exists (x - (n - 1) / 2 + (m - 1) / 2 :: c'). split.
      + cbn [inside]. split; auto. clear -IN L. destruct IN as [IN _]. Z.to_euclidean_division_equations. lia.
      + unfold diff, anchor in *. cbn [map combine fst snd]. rewrite D'. f_equal. lia. }
  destruct X as (c & I' & D). destruct (pixel_of_coords roi' c I') as (r' & Hr' & E). exists r'. split; auto. unfold offset. rewrite E. exact D.
Qed.

(** ** The lineal path function *)

Lemma roi_L : exists roi roi' shape f e e' r r', shapes true roi shape /\ shapes true roi' shape /\ is_image shape f /\ coverable Bresenham roi /\ coverable Bresenham roi' /\
  fresh true roi true true (CallL f Bresenham) = Ok e /\ fresh true roi' true true (CallL f Bresenham) = Ok e' /\
  pixel roi r /\ pixel roi' r' /\ offset roi' r' = offset roi r /\ result_at e r = Exact 0%Qc /\ result_at e' r' <> Exact 0%Qc.
Proof.
  exists [3; 5], [3; 7], [5; 8], (mkimg [5; 8] [1;1;0;0;0;0;0;0; 0;0;1;0;0;0;0;0; 0;0;0;0;0;0;0;0; 0;0;0;0;0;0;0;0; 0;0;0;0;0;0;0;0]).
  assert (HS : shapes true [3; 5] [5; 8]). { split; [reflexivity|]. split; [cbn; lia|]. split; [repeat constructor; lia|]. split; [repeat constructor; lia|]. intros _. vm_compute. repeat split; discriminate. }
  assert (HS' : shapes true [3; 7] [5; 8]). { split; [reflexivity|]. split; [cbn; lia|]. split; [repeat constructor; lia|]. split; [repeat constructor; lia|]. intros _. vm_compute. repeat split; discriminate. }
  eexists _, _, 14, 19. split; [exact HS|]. split; [exact HS'|]. split; [split; reflexivity|]. split; [repeat constructor; lia|]. split; [repeat constructor; lia|].
  split; [vm_compute; reflexivity|]. split; [vm_compute; reflexivity|]. split; [unfold pixel; cbn; lia|]. split; [unfold pixel; cbn; lia|]. split; [reflexivity|].
  split; [vm_compute; apply f_equal; apply Qc_is_canon; reflexivity|]. vm_compute. intros Q. discriminate.
Qed.

Lemma roi_W2c : exists roi roi' shape cl f e e' r r', shapes true roi shape /\ shapes true roi' shape /\ is_image shape cl /\ is_image shape f /\ coverable Bresenham roi /\ coverable Bresenham roi' /\
  fresh true roi true true (CallW2c cl cl f None Bresenham) = Ok e /\ fresh true roi' true true (CallW2c cl cl f None Bresenham) = Ok e' /\
  pixel roi r /\ pixel roi' r' /\ offset roi' r' = offset roi r /\ result_at e r = Exact (zq 1 / zq 6)%Qc /\ result_at e' r' = Exact (zq 1 / zq 8)%Qc.
Proof.
  exists [3; 5], [3; 7], [5; 8], (mkimg [5; 8] [1;0;0;0;0;0;0;0; 0;0;0;0;0;0;0;0; 0;0;0;0;0;0;0;0; 0;0;0;0;0;0;0;0; 0;0;0;0;0;0;0;0]),
    (mkimg [5; 8] (map zq [0;0;0;0;0;0;0;0; 0;1;0;1;0;0;0;0; 0;0;0;0;0;0;0;0; 0;0;0;0;0;0;0;0; 0;0;0;0;0;0;0;0])).
  assert (HS : shapes true [3; 5] [5; 8]). { split; [reflexivity|]. split; [cbn; lia|]. split; [repeat constructor; lia|]. split; [repeat constructor; lia|]. intros _. vm_compute. repeat split; discriminate. }
  assert (HS' : shapes true [3; 7] [5; 8]). { split; [reflexivity|]. split; [cbn; lia|]. split; [repeat constructor; lia|]. split; [repeat constructor; lia|]. intros _. vm_compute. repeat split; discriminate. }
  eexists _, _, 7, 10. split; [exact HS|]. split; [exact HS'|]. split; [split; reflexivity|]. split; [split; reflexivity|]. split; [repeat constructor; lia|]. split; [repeat constructor; lia|].
  split; [vm_compute; reflexivity|]. split; [vm_compute; reflexivity|]. split; [unfold pixel; cbn; lia|]. split; [unfold pixel; cbn; lia|]. split; [reflexivity|].
  split; vm_compute; apply f_equal; apply Qc_is_canon; reflexivity.
Qed.
