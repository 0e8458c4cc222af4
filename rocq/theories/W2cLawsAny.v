(** * W2cLawsAny: the laws of W2c for every region of interest (proofs only) *)

From Coq Require Import ZArith QArith Qcanon List Bool Lia.
From Verif Require Import Base BaseLemmas SpecCluster ClusterGeom SpecDilate SpecPath Path Ensemble SpecEnsemble EnsembleSums EnsembleTop EnsembleL EnsembleW2c SpecAlgebra DerivedAlgebra DerivedLineal W2cLaws
  SpecW2cSlide W2cSlide AliasTop.
Import ListNotations.
Open Scope Z_scope.

Definition src (roi : list Z) (l : Z -> list (list Z * list Z * Z)) (t : Z) : list (list Z * list Z * Z) :=
  if (0 <=? t - slide roi) && (t - slide roi <? zprod roi) then l (t - slide roi) else [].

Definition lands (roi : list Z) (l : Z -> list (list Z * list Z * Z)) : bool :=
  forallb (fun r => match l r with [] => true | _ => (0 <=? r + slide roi) && (r + slide roi <? zprod roi) end) (zrange 0 (zprod roi)).

Lemma W2c_anywhere_by : forall asrt per var roi shape mode, shapes per roi shape -> walkable mode roi ->
  let paths := roi_paths mode roi in (forall rows r, In rows paths -> In r rows -> length r = 3%nat) /\
  forall cl ce f m, is_image shape cl -> is_image shape ce -> is_image shape f -> mask_of shape m ->
  let due := counted per roi shape (i_vals cl) (i_vals ce) (i_vals (mask1 f m)) paths in
  if lands roi due then
    exists e, fresh asrt roi per var (CallW2c cl ce f m mode) = Ok e /\
    forall t, pixel roi t ->
      first_at e t = sum_over (src roi due t) (fun w => value_at per (three shape) (i_vals f) (snd w) (snd (fst w))) /\
      norm_at e t = zq (lenZ (src roi due t)) /\
      result_at e t = Exact (quotient (first_at e t) (norm_at e t))
  else fresh asrt roi per var (CallW2c cl ce f m mode) = UB.
Proof.
  intros asrt per var roi shape mode HS HW. destruct (W2c_slides_by asrt per var roi shape mode HS HW) as (HP & H).
  cbv zeta. revert HP H. generalize (roi_paths mode roi). intros paths HP H. split. { apply (paths_length mode roi paths); auto. destruct HS as (-> & ? & _). auto. }
  intros cl ce f m Hcl Hce Hf Hm. set (due := counted per roi shape (i_vals cl) (i_vals ce) (i_vals (mask1 f m)) paths).
  assert (M : fresh asrt roi per var (CallW2c cl ce f m mode) = fresh asrt roi per var (CallW2c cl ce f (Some (mask1 f m)) mode)) by (destruct m; reflexivity).
  destruct (H cl ce f (mask1 f m) Hcl Hce Hf) as (H1 & H2). { apply mask1_ok; auto. apply HS. }
  fold due in H1, H2. rewrite M. destruct (lands roi due) eqn:EL.
  - unfold lands in EL. rewrite forallb_forall in EL. destruct H2 as (e & E & _ & V1 & V2 & V3).
    { intros r Hr NE. specialize (EL r (proj2 (zrange_In _ _ _) Hr)). destruct (due r); [contradiction|]. apply andb_true_iff in EL. destruct EL as [A B]. unfold pixel. lia. }
    exists e. split; [exact E|]. intros t Ht. unfold src. destruct ((0 <=? t - slide roi) && (t - slide roi <? zprod roi)) eqn:ES.
    + apply andb_true_iff in ES. assert (PS : pixel roi (t - slide roi)) by (unfold pixel; lia).
      replace t with ((t - slide roi) + slide roi) in Ht |- * by lia. replace (t - slide roi + slide roi - slide roi) with (t - slide roi) by lia.
      destruct (V1 (t - slide roi) PS Ht) as (A & B). split; [exact A|]. split; [exact B|]. apply V3. exact Ht.
    + apply andb_false_iff in ES. destruct (V2 t Ht) as (A & B). { unfold pixel. lia. } split; [exact A|]. split; [rewrite B; symmetry; apply zq_0|]. apply V3. exact Ht.
  - apply H1. unfold lands in EL. 
    assert (X : exists r, In r (zrange 0 (zprod roi)) /\ match due r with [] => true | _ => (0 <=? r + slide roi) && (r + slide roi <? zprod roi) end = false).
    { clear -EL. induction (zrange 0 (zprod roi)) as [|x l IH]; [discriminate|]. cbn [forallb] in EL. apply andb_false_iff in EL. destruct EL as [E|E].
      - exists x. split; [left; reflexivity|exact E].
      - destruct (IH E) as (r & I & F). exists r. split; [right; exact I|exact F]. }
    destruct X as (r & IN & F). apply zrange_In in IN. exists r. split; [exact IN|]. destruct (due r); [discriminate|]. split; [discriminate|]. unfold pixel. apply andb_false_iff in F. lia.
Qed.

Lemma W2c_anywhere : forall asrt per var roi shape mode, shapes per roi shape -> walkable mode roi ->
  exists paths, (forall rows r, In rows paths -> In r rows -> length r = 3%nat) /\
  forall cl ce f m, is_image shape cl -> is_image shape ce -> is_image shape f -> mask_of shape m ->
  let due := counted per roi shape (i_vals cl) (i_vals ce) (i_vals (mask1 f m)) paths in
  if lands roi due then
    exists e, fresh asrt roi per var (CallW2c cl ce f m mode) = Ok e /\
    forall t, pixel roi t ->
      first_at e t = sum_over (src roi due t) (fun w => value_at per (three shape) (i_vals f) (snd w) (snd (fst w))) /\
      norm_at e t = zq (lenZ (src roi due t)) /\
      result_at e t = Exact (quotient (first_at e t) (norm_at e t))
  else fresh asrt roi per var (CallW2c cl ce f m mode) = UB.
Proof.
  intros asrt per var roi shape mode HS HW. exists (roi_paths mode roi). exact (W2c_anywhere_by asrt per var roi shape mode HS HW).
Qed.

Lemma src_In : forall roi l t w, In w (src roi l t) -> exists r, In w (l r).
Proof. intros roi l t w H. unfold src in H. destruct (_ && _); [eauto|destruct H]. Qed.

Lemma between_anywhere : forall asrt var roi shape cl ce f m mode lo hi e, shapes true roi shape -> walkable mode roi ->
  is_image shape cl -> is_image shape ce -> is_image shape f -> mask_of shape m ->
  (forall p, pixel shape p -> zn (i_vals (mask1 f m)) p = 0 -> (lo <= qn (i_vals f) p)%Qc /\ (qn (i_vals f) p <= hi)%Qc) ->
  fresh asrt roi true var (CallW2c cl ce f m mode) = Ok e ->
  forall t, pixel roi t -> norm_at e t <> 0%Qc -> exists q, result_at e t = Exact q /\ (lo <= q)%Qc /\ (q <= hi)%Qc.
Proof.
  intros asrt var roi shape cl ce f m mode lo hi e HS HW Hcl Hce Hf Hm HB E r Hr HN.
  destruct (W2c_anywhere asrt true var roi shape mode HS HW) as (paths & HL & H). specialize (H cl ce f m Hcl Hce Hf Hm). cbv zeta in H.
  destruct (lands _ _); [|congruence]. destruct H as (e' & E' & V). rewrite E in E'. apply Ok_inj in E'. subst e'.
  destruct (V r Hr) as (V1 & V2 & V3). set (l := src _ _ _) in *.
  exists (first_at e r / norm_at e r)%Qc. split; [rewrite V3, quotient_nonzero; auto|].
  assert (HP : (0 < norm_at e r)%Qc).
  { rewrite V2 in *. rewrite <- zq_0. apply zq_lt. pose proof (lenZ_nonneg _ l). assert (lenZ l <> 0); [|lia]. intros Z0. apply HN. rewrite Z0. apply zq_0. }
  assert (HT : forall w, In w l -> (lo <= value_at true (three shape) (i_vals f) (snd w) (snd (fst w)))%Qc /\ (value_at true (three shape) (i_vals f) (snd w) (snd (fst w)) <= hi)%Qc).
  { intros w IN. unfold l in IN. apply src_In in IN. destruct IN as (r0 & IN). destruct (counted_target _ _ _ _ _ _ _ _ HS HL IN) as (q & Hq & HM & HV). rewrite HV. apply HB; auto. }
  assert (B1 : (lo * norm_at e r <= first_at e r)%Qc).
  { rewrite V1, V2, <- sum_one, <- sum_scale. apply sum_le. intros w IN. replace (lo * 1)%Qc with lo by ring. apply HT. exact IN. }
  assert (B2 : (first_at e r <= hi * norm_at e r)%Qc).
  { rewrite V1, V2, <- sum_one, <- sum_scale. apply sum_le. intros w IN. replace (hi * 1)%Qc with hi by ring. apply HT. exact IN. }
  clear -HP B1 B2 HN. split.
  - replace lo with ((lo * norm_at e r) * / norm_at e r)%Qc by (field; auto). apply div_mono; auto.
  - replace hi with ((hi * norm_at e r) * / norm_at e r)%Qc by (field; auto). apply div_mono; auto.
Qed.

Lemma linear_anywhere : forall asrt per var roi shape a b cl ce f f' m mode e1, shapes per roi shape -> walkable mode roi ->
  is_image shape cl -> is_image shape ce -> is_image shape f -> is_image shape f' -> mask_of shape m ->
  fresh asrt roi per var (CallW2c cl ce f m mode) = Ok e1 ->
  exists e e2, fresh asrt roi per var (CallW2c cl ce (blend a b f f') m mode) = Ok e /\ fresh asrt roi per var (CallW2c cl ce f' m mode) = Ok e2 /\
    forall t, pixel roi t -> norm_at e t = norm_at e1 t /\ norm_at e t = norm_at e2 t /\
      first_at e t = (a * first_at e1 t + b * first_at e2 t)%Qc /\
      exists q1 q2, result_at e1 t = Exact q1 /\ result_at e2 t = Exact q2 /\ result_at e t = Exact (a * q1 + b * q2)%Qc.
Proof.
  intros asrt per var roi shape a b cl ce f f' m mode e1 HS HW Hcl Hce Hf Hf' Hm E1.
  destruct (W2c_anywhere asrt per var roi shape mode HS HW) as (paths & HL & H).
  pose proof (H cl ce (blend a b f f') m Hcl Hce (blend_image _ _ _ _ _ Hf Hf') Hm) as H0.
  pose proof (H cl ce f m Hcl Hce Hf Hm) as H1. pose proof (H cl ce f' m Hcl Hce Hf' Hm) as H2. cbv zeta in H0, H1, H2. clear H.
  assert (M1 : i_vals (mask1 (blend a b f f') m) = i_vals (mask1 f m)) by reflexivity.
  assert (M2 : i_vals (mask1 f' m) = i_vals (mask1 f m)). { destruct m; [reflexivity|]. cbn [mask1]. rewrite (proj1 Hf), (proj1 Hf'). reflexivity. }
  rewrite M1 in H0. rewrite M2 in H2. set (due := counted _ _ _ _ _ _ _) in *. destruct (lands roi due); [|congruence].
  destruct H0 as (e & E & V). destruct H1 as (e1' & E1' & V1). rewrite E1 in E1'. apply Ok_inj in E1'. subst e1'. destruct H2 as (e2 & E2 & V2).
  exists e, e2. split; [exact E|]. split; [exact E2|]. intros r Hr.
  destruct (V r Hr) as (A1 & A2 & A3). destruct (V1 r Hr) as (B1 & B2 & B3). destruct (V2 r Hr) as (C1 & C2 & C3). set (l := src roi due r) in *.
  assert (N1 : norm_at e r = norm_at e1 r) by congruence. assert (N2 : norm_at e r = norm_at e2 r) by congruence.
  assert (HP : Forall (fun n => 1 <= n) (three shape)) by (apply three_pos; apply HS).
  assert (Z3 : zprod (three shape) = zprod shape) by (apply zprod3; apply HS).
  assert (F : first_at e r = (a * first_at e1 r + b * first_at e2 r)%Qc).
  { rewrite A1, B1, C1, <- !sum_scale, <- sum_plus. apply sum_ext. intros w _.
    destruct (target_cases per (three shape) (snd w) (snd (fst w))) as [(q & Hq & HT)|HT].
    - rewrite !(value_target per (three shape) _ (snd w) (snd (fst w)) q) by auto. unfold blend. cbn [i_vals].
      destruct Hf as [_ L1], Hf' as [_ L2]. unfold pixel in Hq. rewrite blend_qn by lia. reflexivity.
    - rewrite !value_none by auto. ring. }
  split; auto. split; auto. split; auto. eexists. eexists. split; [exact B3|]. split; [exact C3|]. rewrite A3, F, <- N1, <- N2. f_equal.
  unfold quotient. destruct (Qceq_b (norm_at e r) 0); [ring|unfold Qcdiv; ring].
Qed.

Lemma ignores_anywhere : forall asrt per var roi shape cl ce f f' fm mode e, shapes per roi shape -> walkable mode roi ->
  is_image shape cl -> is_image shape ce -> same_unmasked shape fm f f' ->
  fresh asrt roi per var (CallW2c cl ce f (Some fm) mode) = Ok e ->
  exists e', fresh asrt roi per var (CallW2c cl ce f' (Some fm) mode) = Ok e' /\
    forall t, pixel roi t -> first_at e t = first_at e' t /\ norm_at e t = norm_at e' t /\ result_at e t = result_at e' t.
Proof.
  intros asrt per var roi shape cl ce f f' fm mode e HS HW Hcl Hce (Hf & Hf' & Hm & HU) E.
  destruct (W2c_anywhere asrt per var roi shape mode HS HW) as (paths & HL & H).
  pose proof (H cl ce f (Some fm) Hcl Hce Hf Hm) as H1. pose proof (H cl ce f' (Some fm) Hcl Hce Hf' Hm) as H2. cbv zeta in H1, H2. cbn [mask1] in H1, H2. clear H.
  set (due := counted _ _ _ _ _ _ _) in *. destruct (lands roi due); [|congruence].
  destruct H1 as (e0 & E0 & V). rewrite E in E0. apply Ok_inj in E0. subst e0. destruct H2 as (e' & E' & V').
  exists e'. split; [exact E'|]. intros r Hr. destruct (V r Hr) as (A1 & A2 & A3). destruct (V' r Hr) as (B1 & B2 & B3).
  assert (HP : Forall (fun n => 1 <= n) (three shape)) by (apply three_pos; apply HS).
  assert (Z3 : zprod (three shape) = zprod shape) by (apply zprod3; apply HS).
  assert (F : first_at e r = first_at e' r).
  { rewrite A1, B1. apply sum_ext. intros w IN. apply src_In in IN. destruct IN as (r0 & IN). destruct (counted_In _ _ _ _ _ _ _ _ _ IN) as (_ & Hp & HM).
    destruct (target_cases per (three shape) (snd w) (snd (fst w))) as [(q & Hq & HT)|HT].
    - rewrite !(value_target per (three shape) _ (snd w) (snd (fst w)) q) by auto. rewrite (phase_target per (three shape) _ (snd w) (snd (fst w)) q) in HM by auto.
      apply negb_false_iff, Z.eqb_eq in HM. unfold pixel in Hq. rewrite Z3 in Hq. unfold qn. specialize (HU q Hq HM).
      assert (N : forall l : list Qc, nth (Z.to_nat q) l 0%Qc = match nth_error l (Z.to_nat q) with Some x => x | None => 0%Qc end).
      { intros l. destruct (nth_error l (Z.to_nat q)) as [x|] eqn:X; [apply nth_error_nth; exact X|apply nth_overflow; apply nth_error_None; exact X]. }
      rewrite !N, HU. reflexivity.
    - rewrite !value_none by auto. reflexivity. }
  assert (N : norm_at e r = norm_at e' r) by congruence. split; auto. split; auto. rewrite A3, B3, F, N. reflexivity.
Qed.
