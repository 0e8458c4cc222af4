(** * LinealMoved: statistics along paths of images that are moved (proofs only) *)

From Coq Require Import ZArith QArith Qcanon List Bool Lia Permutation.
From Verif Require Import Base BaseLemmas Cluster SpecCluster ClusterGeom SpecDilate SpecPath Path Array3 Array3Lemmas DilateTop Ensemble SpecEnsemble EnsembleSums EnsembleWindow EnsembleAdd EnsembleTop
  EnsembleL EnsembleW2c SpecAlgebra DerivedAlgebra SpecSymmetry DerivedCluster DerivedDilate DerivedEnsemble DerivedLineal SpecMoved SpecPathSym PathSym W2cLaws SpecLinealMoved.
Import ListNotations.
Open Scope Z_scope.

(** ** Three dimensions *)

Definition lift (x : list Z) : list Z :=
  match x with [] => [0; 0; 0] | [a] => [0; a; 0] | [a; b] => [a; b; 0] | _ => x end.

Lemma coords_three : forall shape p, (length shape <= 3)%nat -> Forall (fun n => 1 <= n) shape -> pixel shape p -> coords (three shape) p = lift (coords shape p).
Proof.
  intros shape p HL HP Hp. unfold pixel in Hp. destruct shape as [|a [|b [|c [|d s]]]]; [| | |reflexivity|cbn in HL; lia];
    repeat match goal with HF : Forall _ (_ :: _) |- _ => inversion HF; clear HF; subst end; cbn [three coords zprod lift] in *; rewrite ?Z.mul_1_r, ?Z.div_1_r, ?Z.mod_1_r in *.
  - assert (p = 0) by lia. subst. reflexivity.
  - rewrite Z.div_small, Z.mod_small by lia. reflexivity.
  - reflexivity.
Qed.

Lemma offset_three : forall roi r, (length roi <= 3)%nat -> Forall (fun n => 1 <= n) roi -> pixel roi r -> offset (three roi) r = lift (offset roi r).
Proof.
  intros roi r HL HP Hr. unfold offset. rewrite coords_three by auto.
  destruct roi as [|a [|b [|c [|d s]]]]; [| | |reflexivity|cbn in HL; lia]; reflexivity.
Qed.

Lemma moved_lift : forall per shape a d b, (length shape <= 3)%nat -> moved per shape a d b -> moved per (three shape) (lift a) (lift d) (lift b).
Proof.
  intros per shape a d b HL M. destruct shape as [|x [|y [|z [|u s]]]]; cbn in HL; try lia;
    destruct a as [|a0 [|a1 [|a2 [|a3 a]]]]; cbn [moved] in M; try tauto; destruct d as [|d0 [|d1 [|d2 [|d3 d]]]]; cbn [moved] in M; try tauto;
    destruct b as [|b0 [|b1 [|b2 [|b3 b]]]]; cbn [moved] in M; try tauto; cbn [three lift moved]; destruct per; rewrite ?Z.mod_1_r; intuition lia.
Qed.

(** ** The end points *)

Section Edge.
Variables (per : bool) (roi shape : list Z) (n0 n1 n2 k0 k1 k2 : Z).
Hypothesis HD : dims3 per roi shape n0 n1 n2 k0 k1 k2.
Notation R3 := ([k0; k1; k2]).
Let Pk : 1 <= k0 < 2 ^ 62 /\ 1 <= k1 < 2 ^ 62 /\ 1 <= k2 < 2 ^ 62 := D_pk _ _ _ _ _ _ _ _ _ HD.

Definition ends (k a : Z) : Prop := 1 < k /\ (a = - ((k - 1) / 2) \/ a = k / 2).
Definition within (k a : Z) : Prop := - ((k - 1) / 2) <= a <= k / 2.

Lemma interior_ends : forall k x, 1 <= k -> 0 <= x < k -> interior k x = false <-> ends k (x - (k - 1) / 2).
Proof.
  intros k x Hk Hx. unfold interior, ends. destruct (Z.ltb_spec 1 k); [|split; [discriminate|lia]].
  destruct (Z.leb_spec 1 x); destruct (Z.ltb_spec x (k - 1)); cbn [andb]; split; intros; try discriminate; try reflexivity; Z.to_euclidean_division_equations; lia.
Qed.

Lemma edge_iff : forall a b c, In [a; b; c] (edge R3) <-> (within k0 a /\ within k1 b /\ within k2 c) /\ (ends k0 a \/ ends k1 b \/ ends k2 c).
Proof.
  intros a b c. unfold edge. rewrite in_map_iff. split.
  - intros (r & E & IN). apply filter_In in IN. destruct IN as [IN HB]. unfold pixels in IN. apply zrange_In in IN.
    assert (Hr : 0 <= r < k0 * k1 * k2) by (cbn [zprod] in IN; lia).
    destruct (offset_box _ _ _ _ _ _ _ _ _ HD r Hr) as (a' & b' & c' & E' & Ha & Hb & Hc). rewrite E in E'. injection E' as <- <- <-.
    split; [unfold within; auto|]. rewrite (border_eq _ _ _ _ _ _ _ _ _ HD r Hr) in HB. rewrite (off3 _ _ _ _ _ _ _ _ _ HD r Hr) in E. unfold of0, of1, of2 in E. injection E as E0 E1 E2.
    destruct (flat3_encode k0 k1 k2 r) as (_ & R0 & R1 & R2); try lia.
    apply negb_true_iff in HB. apply andb_false_iff in HB. destruct HB as [HB|HB]; [apply andb_false_iff in HB; destruct HB as [HB|HB]|]; apply interior_ends in HB; try lia; subst; auto.
  - intros [(Ha & Hb & Hc) HE]. destruct (box_in_roi _ _ _ _ _ _ _ _ _ HD a b c Ha Hb Hc) as (r & Hr & E). exists r. split; auto.
    apply filter_In. split. { unfold pixels. apply zrange_In. cbn [zprod]. lia. }
    rewrite (border_eq _ _ _ _ _ _ _ _ _ HD r Hr). rewrite (off3 _ _ _ _ _ _ _ _ _ HD r Hr) in E. unfold of0, of1, of2 in E. injection E as E0 E1 E2.
    destruct (flat3_encode k0 k1 k2 r) as (_ & R0 & R1 & R2); try lia. subst a b c. apply negb_true_iff. rewrite <- !interior_ends in HE by lia.
    destruct HE as [-> |[-> | ->]]; rewrite ?andb_false_r; reflexivity.
Qed.

Lemma edge_three : forall x, In x (edge R3) -> exists a b c, x = [a; b; c].
Proof.
  intros x IN. apply edge_length in IN; [|reflexivity]. destruct x as [|a [|b [|c [|d x]]]]; try discriminate. eauto.
Qed.

Lemma edge_NoDup : NoDup (edge R3).
Proof.
  unfold edge. assert (N : NoDup (filter (border R3) (pixels R3))) by (apply NoDup_filter; apply zrange_NoDup).
  assert (I : forall x y, In x (filter (border R3) (pixels R3)) -> In y (filter (border R3) (pixels R3)) -> offset R3 x = offset R3 y -> x = y).
  { intros x y Hx Hy E. apply filter_In in Hx, Hy. destruct Hx as [Hx _], Hy as [Hy _]. unfold pixels in *. apply zrange_In in Hx, Hy.
    apply (offset_inj _ _ _ _ _ _ _ _ _ HD); auto; cbn [zprod] in *; lia. }
  induction N as [|x l N1 N2 IH]; cbn [map]; constructor.
  - intros IN. apply in_map_iff in IN. destruct IN as (y & E & IN). apply I in E; [subst; contradiction|right; auto|left; auto].
  - apply IH. intros; apply I; auto; right; auto.
Qed.
End Edge.

(** ** Sums over walks *)

Lemma reaches_moved : forall (D : list Z -> list Z) good good' d rows,
  (forall x y, length x = 3%nat -> length y = 3%nat -> D x = D y -> x = y) -> length d = 3%nat ->
  (forall x, In x rows -> length x = 3%nat) -> (forall x, In x rows -> good' (D x) = good x) ->
  SpecEnsemble.reaches good' (D d) (map D rows) = SpecEnsemble.reaches good d rows.
Proof.
  intros D good good' d rows HI Hd. induction rows as [|x rows IH]; intros HL HG; [reflexivity|]. cbn [map SpecEnsemble.reaches].
  rewrite IH by (intros; (apply HL || apply HG); right; auto). rewrite HG by now left. f_equal. f_equal.
  apply bool_iff. rewrite !same_offset_iff. split; [|congruence]. intros E. apply HI in E; auto. apply HL. now left.
Qed.

Lemma visits_moved : forall (D : list Z -> list Z) d rows,
  (forall x y, length x = 3%nat -> length y = 3%nat -> D x = D y -> x = y) -> length d = 3%nat ->
  (forall x, In x rows -> length x = 3%nat) -> visits (D d) (map D rows) = visits d rows.
Proof.
  intros D d rows HI Hd. unfold visits. induction rows as [|x rows IH]; intros HL; [reflexivity|]. cbn [map existsb].
  rewrite IH by (intros; apply HL; right; auto). f_equal. apply bool_iff. rewrite !same_offset_iff. split; [|congruence]. intros E. apply HI in E; auto. apply HL. now left.
Qed.

Lemma prod_moved : forall shape shape' T (D : list Z -> list Z) paths paths' (G G' : list (list Z) -> Z -> Qc), matching shape shape' T ->
  Permutation (map (map D) paths) paths' -> (forall rows p p', In rows paths -> T p p' -> G rows p = G' (map D rows) p') ->
  sum_over (list_prod paths (pixels shape)) (fun c => G (fst c) (snd c)) = sum_over (list_prod paths' (pixels shape')) (fun c => G' (fst c) (snd c)).
Proof.
  intros shape shape' T D paths paths' G G' HT HP HG. rewrite !sum_prod.
  rewrite <- (sum_perm _ (map (map D) paths) paths') by auto. rewrite sum_map. apply sum_ext. intros rows IN. cbn [fst snd].
  apply (sum_pixels_moved shape shape' T); auto.
Qed.

Lemma phase_moved : forall per S S' T f f' p p' d d', matching S S' T -> carried T f f' ->
  (forall q q', T q q' -> movedb per S (coords S p) d (coords S q) = movedb per S' (coords S' p') d' (coords S' q')) ->
  in_phase per S' f' p' d' = in_phase per S f p d.
Proof.
  intros per S S' T f f' p p' d d' (T0 & T1 & T2 & _) HC HM. apply bool_iff. unfold in_phase. rewrite !existsb_exists. split.
  - intros (q' & IN & H). apply zrange_In in IN. destruct (T2 q' IN) as (q & HT). exists q. split; [apply zrange_In; apply (T0 _ _ HT)|].
    rewrite (HM q q' HT), <- (carried_zn _ _ _ HC _ _ HT). exact H.
  - intros (q & IN & H). apply zrange_In in IN. destruct (T1 q IN) as (q' & HT). exists q'. split; [apply zrange_In; apply (T0 _ _ HT)|].
    rewrite <- (HM q q' HT), (carried_zn _ _ _ HC _ _ HT). exact H.
Qed.

Lemma value_moved : forall per S S' T f f' p p' d d', matching S S' T -> carried T f f' ->
  (forall q q', T q q' -> movedb per S (coords S p) d (coords S q) = movedb per S' (coords S' p') d' (coords S' q')) ->
  value_at per S' f' p' d' = value_at per S f p d.
Proof.
  intros per S S' T f f' p p' d d' HT HC HM. unfold value_at. rewrite !sum_filter. symmetry. apply (sum_pixels_moved S S' T); auto.
  intros q q' HQ. rewrite (HM q q' HQ), (carried_qn _ _ _ HC _ _ HQ). reflexivity.
Qed.

(** ** What the code computes, with the paths given *)

Section Explicit.
Variables (asrt per var : bool) (roi shape : list Z) (mode : path_mode) (n0 n1 n2 k0 k1 k2 : Z).
Hypothesis HD : dims3 per roi shape n0 n1 n2 k0 k1 k2.
Hypothesis HW : walkable mode roi.

Definition the_paths : list (list (list Z)) := map (path_for k0 k1 k2 mode) (edge [k0; k1; k2]).

Lemma the_paths_length : forall rows r, In rows the_paths -> In r rows -> length r = 3%nat.
Proof.
  intros rows r IN IR. unfold the_paths in IN. apply in_map_iff in IN. destruct IN as (x & <- & IN).
  destruct (paths_exist _ _ _ _ _ _ _ _ _ mode HD HW x IN) as (_ & H1 & _ & H2). pose proof (edge_length [k0; k1; k2] x eq_refl IN) as HX. rewrite <- HX.
  destruct (path_for k0 k1 k2 mode x) as [|y rows]; [destruct IR|]. injection H1 as ->. eapply rows_length; eauto.
Qed.

Lemma L_explicit : forall f, is_image shape f ->
  exists e, fresh asrt roi per var (CallL f mode) = Ok e /\ roi_shaped roi e /\
    forall r, pixel roi r ->
      first_at e r = sum_over (list_prod the_paths (pixels shape)) (fun c => b2q (SpecEnsemble.reaches (in_phase per (three shape) (i_vals f) (snd c)) (offset (three roi) r) (fst c))) /\
      second_at e r = 0%Qc /\
      norm_at e r = sum_over (list_prod the_paths (pixels shape)) (fun c => b2q (visits (offset (three roi) r) (fst c))) /\
      result_at e r = Exact (quotient (first_at e r) (norm_at e r)).
Proof.
  intros f Hf. destruct (L_exact asrt per var _ _ _ _ _ _ _ _ HD f mode Hf (paths_exist _ _ _ _ _ _ _ _ _ mode HD HW)) as (e & E & SH & _ & V).
  destruct (fresh_lin asrt per var roi shape n0 n1 n2 k0 k1 k2 S_L (CallL f mode) _ HD (L_lin asrt per var _ _ _ _ _ _ _ _ HD f mode Hf (paths_exist _ _ _ _ _ _ _ _ _ mode HD HW))) as (e' & E' & _ & _ & V').
  rewrite E in E'. injection E' as <-.
  exists e. split; auto. split; auto. intros r Hr. destruct (V r Hr) as (V1 & V2 & V3). destruct (V' r Hr) as (_ & _ & V4 & _). rewrite !sum_b2q. rewrite (three_eq roi k0 k1 k2), (three_eq shape n0 n1 n2) by apply HD. split; [exact V1|]. split; [rewrite V4; cbn [fst]; apply sum_zero|]. split; [exact V2|exact V3].
Qed.

Hypothesis HE : even_sided roi.

Definition step_sum (cl ce : list Z) (G : Z -> list Z -> Qc) (fm : list Z) (d : list Z) (rows : list (list Z)) (p : Z) : Qc :=
  if cluster_centre cl ce p then
    sum_over (combine rows (tl rows)) (fun ab => if same_offset d (fst ab) && negb (in_phase per (three shape) fm p (snd ab)) then G p (snd ab) else 0%Qc)
  else 0%Qc.

Lemma W2c_explicit : forall cl ce f fm, is_image shape cl -> is_image shape ce -> is_image shape f -> is_mask shape fm ->
  exists e, fresh asrt roi per var (CallW2c cl ce f (Some fm) mode) = Ok e /\ roi_shaped roi e /\
    forall r, pixel roi r ->
      first_at e r = sum_over (list_prod the_paths (pixels shape)) (fun c =>
        step_sum (i_vals cl) (i_vals ce) (value_at per (three shape) (i_vals f)) (i_vals fm) (offset (three roi) r) (fst c) (snd c)) /\
      second_at e r = 0%Qc /\
      norm_at e r = sum_over (list_prod the_paths (pixels shape)) (fun c =>
        step_sum (i_vals cl) (i_vals ce) (fun _ _ => 1%Qc) (i_vals fm) (offset (three roi) r) (fst c) (snd c)) /\
      result_at e r = Exact (first_at e r / safe (norm_at e r))%Qc.
Proof.
  intros cl ce f fm Hcl Hce Hf Hfm. pose proof (paths_exist _ _ _ _ _ _ _ _ _ mode HD HW) as HG.
  assert (HC : k2 = 1 \/ (k1 - 1) / 2 = (k2 - 1) / 2).
  { pose proof (D_k _ _ _ _ _ _ _ _ _ HD) as EK. destruct roi as [|a [|b [|c [|d s]]]]; cbn [shape3] in EK; inversion EK; subst; auto. }
  destruct (fresh_lin asrt per var roi shape n0 n1 n2 k0 k1 k2 S_W2c (CallW2c cl ce f (Some fm) mode) _ HD
     (W2c_lin asrt per var roi shape n0 n1 n2 k0 k1 k2 HD HC cl ce f fm mode Hcl Hce Hf Hfm HG)) as (e & E & O & SH & V).
  exists e. split; auto. split; auto. intros r Hr. destruct (V r Hr) as (Hr' & V1 & V2 & V3). cbn [fst snd] in V1, V2, V3.
  assert (ZP : zprod shape = n0 * n1 * n2) by (apply shape3_prod; apply HD).
  rewrite (result_at_eq S_W2c per var roi k0 k1 k2 e r O Hr'). split; [|split; [rewrite V2; apply sum_zero|split; [|reflexivity]]].
  - rewrite V1, sum_prod. unfold the_paths. rewrite sum_map. apply sum_ext. intros x _. unfold pixels. rewrite ZP. unfold tot, step_sum. rewrite sum_filter. apply sum_ext. intros p _.
    rewrite (three_eq roi k0 k1 k2), (three_eq shape n0 n1 n2) by apply HD. reflexivity.
  - rewrite V3, sum_prod. unfold the_paths. rewrite sum_map. apply sum_ext. intros x _. unfold pixels. rewrite ZP. unfold tot, step_sum. rewrite sum_filter. apply sum_ext. intros p _.
    rewrite (three_eq roi k0 k1 k2), (three_eq shape n0 n1 n2) by apply HD. reflexivity.
Qed.
End Explicit.

(** ** General form: the offset [d] of the image becomes [D d] in the moved one *)

Lemma combine_tl_map : forall (A B : Type) (g : A -> B) l, combine (map g l) (tl (map g l)) = map (fun ab => (g (fst ab), g (snd ab))) (combine l (tl l)).
Proof.
  intros A B g l. destruct l as [|x l]; [reflexivity|]. cbn [map tl]. revert x. induction l as [|y l IH]; intros x; [reflexivity|].
  cbn [map combine fst snd]. f_equal. apply IH.
Qed.

Section Moved.
Variables (asrt per var : bool) (roi shape roi' shape' : list Z) (n0 n1 n2 k0 k1 k2 n0' n1' n2' k0' k1' k2' : Z) (T : Z -> Z -> Prop) (D : list Z -> list Z) (mode : path_mode).
Hypothesis HD : dims3 per roi shape n0 n1 n2 k0 k1 k2.
Hypothesis HD' : dims3 per roi' shape' n0' n1' n2' k0' k1' k2'.
Hypothesis HT : matching shape shape' T.
Hypothesis DI : forall x y, length x = 3%nat -> length y = 3%nat -> D x = D y -> x = y.
Hypothesis DE : forall x, In x (edge [k0; k1; k2]) -> In (D x) (edge [k0'; k1'; k2']).
Hypothesis DS : forall y, In y (edge [k0'; k1'; k2']) -> exists x, In x (edge [k0; k1; k2]) /\ D x = y.
Hypothesis DP : forall x, In x (edge [k0; k1; k2]) -> path_for k0' k1' k2' mode (D x) = map D (path_for k0 k1 k2 mode x).
Hypothesis HM : forall d p p' q q', length d = 3%nat -> T p p' -> T q q' ->
  movedb per (three shape) (coords (three shape) p) d (coords (three shape) q) = movedb per (three shape') (coords (three shape') p') (D d) (coords (three shape') q').
Hypothesis HW : walkable mode roi.
Hypothesis HW' : walkable mode roi'.

Lemma matching3 : matching (three shape) (three shape') T.
Proof.
  unfold matching, pixel. rewrite (three_eq shape n0 n1 n2), (three_eq shape' n0' n1' n2') by (apply HD || apply HD'). cbn [zprod]. rewrite !Z.mul_1_r, !Z.mul_assoc.
  rewrite <- (shape3_prod shape n0 n1 n2), <- (shape3_prod shape' n0' n1' n2') by (apply HD || apply HD'). exact HT.
Qed.

Lemma edges_moved : Permutation (map D (edge [k0; k1; k2])) (edge [k0'; k1'; k2']).
Proof.
  apply NoDup_Permutation.
  - pose proof (edge_NoDup _ _ _ _ _ _ _ _ _ HD) as N. assert (L : forall x, In x (edge [k0; k1; k2]) -> length x = 3%nat) by (intros x; apply (edge_length [k0; k1; k2] x eq_refl)).
    clear -N L DI. induction N as [|x l N1 N2 IH]; cbn [map]; constructor.
    + intros IN. apply in_map_iff in IN. destruct IN as (y & E & IN). apply DI in E; [subst; contradiction|apply L; right; auto|apply L; left; auto].
    + apply IH. intros; apply L; right; auto.
  - apply (edge_NoDup _ _ _ _ _ _ _ _ _ HD').
  - intros y. rewrite in_map_iff. split; [intros (x & <- & IN); auto|]. intros IN. destruct (DS y IN) as (x & IX & E). eauto.
Qed.

Lemma paths_moved : Permutation (map (map D) (the_paths mode k0 k1 k2)) (the_paths mode k0' k1' k2').
Proof.
  unfold the_paths. rewrite map_map. rewrite <- (map_ext_in (fun x => path_for k0' k1' k2' mode (D x))) by apply DP.
  rewrite <- (map_map D (path_for k0' k1' k2' mode)). apply Permutation_map. apply edges_moved.
Qed.

Lemma off_length : forall r, length (offset (three roi) r) = 3%nat.
Proof. intros r. rewrite (three_eq roi k0 k1 k2) by apply HD. unfold offset, diff. rewrite map_length, combine_length, coords_length, anchor_length. reflexivity. Qed.

Lemma L_moved : forall f f', carried_image T shape shape' f f' ->
  exists e e', fresh asrt roi per var (CallL f mode) = Ok e /\ fresh asrt roi' per var (CallL f' mode) = Ok e' /\ roi_shaped roi e /\ roi_shaped roi' e' /\
    forall r r', pixel roi r -> pixel roi' r' -> offset (three roi') r' = D (offset (three roi) r) -> same_at e r e' r'.
Proof.
  intros f f' (Hf & Hf' & HC). destruct (L_explicit asrt per var _ _ mode _ _ _ _ _ _ HD HW f Hf) as (e & E & SH & V).
  destruct (L_explicit asrt per var _ _ mode _ _ _ _ _ _ HD' HW' f' Hf') as (e' & E' & SH' & V').
  exists e, e'. repeat (split; auto; []). intros r r' Hr Hr' HO. destruct (V r Hr) as (V1 & V2 & V3 & V4). destruct (V' r' Hr') as (W1 & W2 & W3 & W4).
  pose proof (the_paths_length per _ _ mode _ _ _ _ _ _ HD HW) as PL. pose proof (off_length r) as OL.
  assert (X1 : first_at e' r' = first_at e r).
  { rewrite V1, W1, HO. symmetry.
    apply (prod_moved shape shape' T D (the_paths mode k0 k1 k2) (the_paths mode k0' k1' k2')
      (fun rows p => b2q (SpecEnsemble.reaches (in_phase per (three shape) (i_vals f) p) (offset (three roi) r) rows))
      (fun rows p => b2q (SpecEnsemble.reaches (in_phase per (three shape') (i_vals f') p) (D (offset (three roi) r)) rows)) HT paths_moved).
    intros rows p p' IN Hp. f_equal. symmetry. apply reaches_moved; auto; [intros; eapply PL; eauto|].
    intros x IX. apply (phase_moved per _ _ T); auto using matching3. intros q q' Hq. apply HM; auto. eapply PL; eauto. }
  assert (X3 : norm_at e' r' = norm_at e r).
  { rewrite V3, W3, HO. symmetry.
    apply (prod_moved shape shape' T D (the_paths mode k0 k1 k2) (the_paths mode k0' k1' k2')
      (fun rows p => b2q (visits (offset (three roi) r) rows)) (fun rows p => b2q (visits (D (offset (three roi) r)) rows)) HT paths_moved).
    intros rows p p' IN Hp. f_equal. symmetry. apply visits_moved; auto. intros; eapply PL; eauto. }
  unfold same_at. rewrite X1, X3, V2, W2, V4, W4, X1, X3. auto.
Qed.

Hypothesis HE : even_sided roi.
Hypothesis HE' : even_sided roi'.

Lemma steps_moved : forall cl cl' ce ce' fm fm' (G G' : Z -> list Z -> Qc) d rows p p', carried T cl cl' -> carried T ce ce' -> carried T fm fm' ->
  length d = 3%nat -> (forall x, In x rows -> length x = 3%nat) -> T p p' -> (forall x, length x = 3%nat -> G' p' (D x) = G p x) ->
  step_sum per shape' cl' ce' G' fm' (D d) (map D rows) p' = step_sum per shape cl ce G fm d rows p.
Proof.
  intros cl cl' ce ce' fm fm' G G' d rows p p' H1 H2 H3 Hd HL Hp HG. unfold step_sum, cluster_centre.
  rewrite (carried_zn _ _ _ H1 _ _ Hp), (carried_zn _ _ _ H2 _ _ Hp). destruct (_ && _); [|reflexivity].
  rewrite combine_tl_map, sum_map. apply sum_ext. intros [a b] IN. cbn [fst snd].
  assert (La : length a = 3%nat) by (apply HL; apply in_combine_l in IN; auto).
  assert (Lb : length b = 3%nat) by (apply HL; apply in_combine_r in IN; destruct rows; [destruct IN|right; auto]).
  rewrite HG by auto. replace (same_offset (D d) (D a)) with (same_offset d a).
  - rewrite (phase_moved per (three shape) (three shape') T fm fm' p p' b (D b)); auto using matching3.
  - apply bool_iff. rewrite !same_offset_iff. split; [congruence|]. intros E. apply DI in E; auto.
Qed.

Lemma W2c_moved : forall cl cl' ce ce' f f' fm fm', carried_image T shape shape' cl cl' -> carried_image T shape shape' ce ce' ->
  carried_image T shape shape' f f' -> carried_mask T shape shape' fm fm' ->
  exists e e', fresh asrt roi per var (CallW2c cl ce f (Some fm) mode) = Ok e /\ fresh asrt roi' per var (CallW2c cl' ce' f' (Some fm') mode) = Ok e' /\ roi_shaped roi e /\ roi_shaped roi' e' /\
    forall r r', pixel roi r -> pixel roi' r' -> offset (three roi') r' = D (offset (three roi) r) -> same_at e r e' r'.
Proof.
  intros cl cl' ce ce' f f' fm fm' (Hcl & Hcl' & Ccl) (Hce & Hce' & Cce) (Hf & Hf' & Cf) (Hfm & Hfm' & Cfm).
  destruct (W2c_explicit asrt per var _ _ mode _ _ _ _ _ _ HD HW HE cl ce f fm Hcl Hce Hf Hfm) as (e & E & SH & V).
  destruct (W2c_explicit asrt per var _ _ mode _ _ _ _ _ _ HD' HW' HE' cl' ce' f' fm' Hcl' Hce' Hf' Hfm') as (e' & E' & SH' & V').
  exists e, e'. repeat (split; auto; []). intros r r' Hr Hr' HO. destruct (V r Hr) as (V1 & V2 & V3 & V4). destruct (V' r' Hr') as (W1 & W2 & W3 & W4).
  pose proof (the_paths_length per _ _ mode _ _ _ _ _ _ HD HW) as PL. pose proof (off_length r) as OL.
  assert (X1 : first_at e' r' = first_at e r).
  { rewrite V1, W1, HO. symmetry.
    apply (prod_moved shape shape' T D (the_paths mode k0 k1 k2) (the_paths mode k0' k1' k2')
      (step_sum per shape (i_vals cl) (i_vals ce) (value_at per (three shape) (i_vals f)) (i_vals fm) (offset (three roi) r))
      (step_sum per shape' (i_vals cl') (i_vals ce') (value_at per (three shape') (i_vals f')) (i_vals fm') (D (offset (three roi) r))) HT paths_moved).
    intros rows p p' IN Hp. symmetry. apply steps_moved; auto; [intros; eapply PL; eauto|].
    intros x LX. apply (value_moved per _ _ T); auto using matching3. }
  assert (X3 : norm_at e' r' = norm_at e r).
  { rewrite V3, W3, HO. symmetry.
    apply (prod_moved shape shape' T D (the_paths mode k0 k1 k2) (the_paths mode k0' k1' k2')
      (step_sum per shape (i_vals cl) (i_vals ce) (fun _ _ => 1%Qc) (i_vals fm) (offset (three roi) r))
      (step_sum per shape' (i_vals cl') (i_vals ce') (fun _ _ => 1%Qc) (i_vals fm') (D (offset (three roi) r))) HT paths_moved).
    intros rows p p' IN Hp. symmetry. apply steps_moved; auto. intros; eapply PL; eauto. }
  unfold same_at. rewrite X1, X3, V2, W2, V4, W4, X1, X3. auto.
Qed.
End Moved.
