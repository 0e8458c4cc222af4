(** * W2cTiled: W2c of a repeated image, for every region of interest (proofs only) *)

From Coq Require Import ZArith QArith Qcanon List Bool Lia.
From Verif Require Import Base BaseLemmas Cluster SpecCluster ClusterGeom ClusterMain SpecDilate SpecPath Path Array3 DilateTop Ensemble SpecEnsemble EnsembleSums EnsembleTop EnsembleL EnsembleW2c SpecAlgebra SpecSymmetry
  DerivedCluster DerivedDilate DerivedEnsemble DerivedLineal SpecMoved PathSym W2cLaws SpecLinealMoved LinealMoved LinealMovedTop SpecW2cSlide W2cSlide W2cLawsAny SpecTile TileTop.
Import ListNotations.
Open Scope Z_scope.

Lemma steps_length : forall paths ab, (forall rows r, In rows paths -> In r rows -> length r = 3%nat) -> In ab (steps paths) -> length (snd ab) = 3%nat.
Proof.
  intros paths [a b] HL IN. unfold steps in IN. apply in_flat_map in IN. destruct IN as (rows & IR & IC). apply (HL rows); auto. cbn [snd].
  apply in_combine_r in IC. destruct rows; [destruct IC|right; exact IC].
Qed.

Section Tiled.
Variables (roi times shape : list Z).
Hypothesis HS : shapes true roi shape.
Hypothesis HL : length times = length shape.
Hypothesis HT : Forall (fun n => 1 <= n) times.
Notation T := (copy_of times shape).

Lemma due_tiled : forall cl cl' ce ce' fm fm' paths r (F F' : list Z -> Z -> Qc), (forall rows r, In rows paths -> In r rows -> length r = 3%nat) ->
  carried T cl cl' -> carried T ce ce' -> carried T fm fm' ->
  (forall x p p', length x = 3%nat -> T p p' -> F x p = F' x p') ->
  sum_over (counted true roi (tiled times shape) cl' ce' fm' paths r) (fun w => F' (snd (fst w)) (snd w)) =
  (zq (zprod times) * sum_over (counted true roi shape cl ce fm paths r) (fun w => F (snd (fst w)) (snd w)))%Qc.
Proof.
  intros cl cl' ce ce' fm fm' paths r F F' HP Ccl Cce Cfm HF.
  assert (HN : Forall (fun n => 1 <= n) shape) by apply HS. assert (H3 : (length shape <= 3)%nat) by apply HS.
  unfold counted. rewrite !sum_filter, !sum_prod, <- sum_scale. apply sum_ext. intros ab IN. pose proof (steps_length _ _ HP IN) as LB. rewrite !sum_filter.
  apply (sum_copies times shape); auto. intros p p' Hp. cbn [fst snd].
  unfold cluster_centre. rewrite (carried_zn _ _ _ Ccl _ _ Hp), (carried_zn _ _ _ Cce _ _ Hp). rewrite three_tiled by auto.
  assert (L3 : length (three shape) = 3%nat) by (clear -H3; destruct shape as [|a [|b [|c [|d s]]]]; cbn in H3; try lia; reflexivity).
  assert (L3' : length (three times) = 3%nat) by (clear -H3 HL; rewrite <- HL in H3; destruct times as [|a [|b [|c [|d s]]]]; cbn in H3; try lia; reflexivity).
  rewrite (phase_copies (three times) (three shape) ltac:(congruence) (pos3 _ HT) (pos3 _ HN) fm fm' p p' (snd ab)); auto; [rewrite (HF _ _ _ LB Hp); reflexivity|lia|apply copy3; auto|apply carried3; auto].
Qed.

Lemma tile_anywhere : forall asrt var cl ce f m cl' ce' f' m' mode,
  carried_walk T shape (tiled times shape) (CallW2c cl ce f m mode) (CallW2c cl' ce' f' m' mode) -> walkable mode roi ->
  let c := fresh asrt roi true var (CallW2c cl ce f m mode) in
  let c' := fresh asrt roi true var (CallW2c cl' ce' f' m' mode) in
  (c = UB /\ c' = UB) \/
  exists e e', c = Ok e /\ c' = Ok e' /\
    forall t, pixel roi t -> first_at e' t = (zq (zprod times) * first_at e t)%Qc /\ norm_at e' t = (zq (zprod times) * norm_at e t)%Qc /\ result_at e' t = result_at e t.
Proof.
  intros asrt var cl ce f m cl' ce' f' m' mode HC HW. cbv zeta.
  pose proof (tiled_shapes roi times shape HL HT HS) as HS'. assert (HN : Forall (fun n => 1 <= n) shape) by apply HS. assert (H3 : (length shape <= 3)%nat) by apply HS.
  destruct HC as ((Icl & Icl' & Ccl) & (Ice & Ice' & Cce) & (If & If' & Cf) & Cm & _).
  assert (CM : carried_mask T shape (tiled times shape) (mask1 f m) (mask1 f' m')).
  { destruct m, m'; cbn [carried_option mask1] in *; try contradiction; auto. destruct If as (-> & _), If' as (-> & _). apply carried_zeros; auto; [apply tiled_pos; auto|]. intros p q H. split; apply H. }
  destruct CM as (_ & _ & Cfm).
  assert (Hm : mask_of shape m /\ mask_of (tiled times shape) m').
  { destruct m, m'; cbn [carried_option mask_of] in *; try contradiction; auto. destruct Cm as (A & B & _). auto. }
  destruct (W2c_anywhere_by asrt true var roi shape mode HS HW) as (HP & H). destruct (W2c_anywhere_by asrt true var roi _ mode HS' HW) as (_ & H').
  pose proof (H cl ce f m Icl Ice If (proj1 Hm)) as H1. pose proof (H' cl' ce' f' m' Icl' Ice' If' (proj2 Hm)) as H2. cbv zeta in H1, H2. clear H H'.
  set (due := counted true roi shape (i_vals cl) (i_vals ce) (i_vals (mask1 f m)) (roi_paths mode roi)) in *.
  set (due' := counted true roi (tiled times shape) (i_vals cl') (i_vals ce') (i_vals (mask1 f' m')) (roi_paths mode roi)) in *.
  pose proof (zprod_pos _ HT) as PT.
  assert (N : forall r, zq (lenZ (due' r)) = (zq (zprod times) * zq (lenZ (due r)))%Qc).
  { intros r. rewrite <- !sum_one. apply (due_tiled _ _ _ _ _ _ (roi_paths mode roi) r (fun _ _ => 1%Qc) (fun _ _ => 1%Qc)); auto. }
  assert (V : forall r, sum_over (due' r) (fun w => value_at true (three (tiled times shape)) (i_vals f') (snd w) (snd (fst w))) =
    (zq (zprod times) * sum_over (due r) (fun w => value_at true (three shape) (i_vals f) (snd w) (snd (fst w))))%Qc).
  { intros r. apply (due_tiled _ _ _ _ _ _ (roi_paths mode roi) r (fun x p => value_at true (three shape) (i_vals f) p x) (fun x p => value_at true (three (tiled times shape)) (i_vals f') p x)); auto.
    intros x p p' LX Hp. symmetry. rewrite three_tiled by auto.
    assert (L3 : length (three shape) = 3%nat) by (clear -H3; destruct shape as [|a [|b [|c [|d s]]]]; cbn in H3; try lia; reflexivity).
    assert (L3' : length (three times) = 3%nat) by (clear -H3 HL; rewrite <- HL in H3; destruct times as [|a [|b [|c [|d s]]]]; cbn in H3; try lia; reflexivity).
    apply (value_copies (three times) (three shape)); auto using pos3; [congruence|lia|apply copy3; auto|apply carried3; auto]. }
  assert (EL : lands roi due = lands roi due').
  { unfold lands. induction (zrange 0 (zprod roi)) as [|r l IH]; [reflexivity|]. cbn [forallb]. rewrite IH. f_equal.
    specialize (N r). rewrite <- zq_mult in N. apply zq_inj in N. destruct (due r), (due' r); try reflexivity; unfold lenZ in N; cbn [length] in N; nia. }
  rewrite <- EL in H2. destruct (lands roi due); [|left; auto]. right.
  destruct H1 as (e & E & W), H2 as (e' & E' & W'). exists e, e'. split; [exact E|]. split; [exact E'|]. intros t Ht.
  destruct (W t Ht) as (A & B & C), (W' t Ht) as (A' & B' & C'). 
  assert (X1 : first_at e' t = (zq (zprod times) * first_at e t)%Qc) by (rewrite A, A'; unfold src; destruct (_ && _); [apply V|cbn; ring]).
  assert (X2 : norm_at e' t = (zq (zprod times) * norm_at e t)%Qc) by (rewrite B, B'; unfold src; destruct (_ && _); [apply N|cbn; rewrite zq_0; ring]).
  split; auto. split; auto. rewrite C, C', X1, X2. f_equal.
  assert (NN : (0 <= norm_at e t)%Qc) by (rewrite B, <- zq_0; apply zq_le; unfold lenZ; lia).
  assert (NZ : (norm_at e t = 0 -> first_at e t = 0)%Qc).
  { rewrite A, B. intros Z. rewrite <- zq_0 in Z. apply zq_inj in Z. destruct (src roi due t); [reflexivity|unfold lenZ in Z; cbn in Z; lia]. }
  rewrite (quotient_safe (first_at e t)) by auto. rewrite quotient_safe; [apply safe_scaled; auto| |].
  - rewrite <- X2, B', <- zq_0. apply zq_le. unfold lenZ. lia.
  - intros Z. apply Qcmult_integral in Z. destruct Z as [Z|Z]; [rewrite <- zq_0 in Z; apply zq_inj in Z; lia|]. rewrite (NZ Z). ring.
Qed.
End Tiled.
