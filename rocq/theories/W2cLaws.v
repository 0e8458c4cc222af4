(** * W2cLaws: laws of the collapsed weighted correlation (proofs only) *)

From Coq Require Import ZArith QArith Qcanon List Bool Lia.
From Verif Require Import Base BaseLemmas Cluster SpecCluster ClusterGeom SpecDilate SpecPath Path Ensemble SpecEnsemble EnsembleSums EnsembleTop
  EnsembleL EnsembleW2c SpecAlgebra DerivedAlgebra SpecSymmetry DerivedCluster DerivedDilate DerivedEnsemble DerivedLineal SpecMoved.
Import ListNotations.
Open Scope Z_scope.

(** ** The pixel a step ends at *)

Lemma pos_lt : forall s : list Z, Forall (fun n => 1 <= n) s -> Forall (fun n => 0 < n) s.
Proof. intros s. apply Forall_impl. intros; lia. Qed.

Lemma value_target : forall per S f p d q, Forall (fun n => 1 <= n) S -> pixel S q -> movedb per S (coords S p) d (coords S q) = true ->
  value_at per S f p d = qn f q.
Proof.
  intros per S f p d q HP Hq HM. unfold value_at. rewrite sum_filter. unfold pixels.
  apply (sum_single (zrange 0 (zprod S)) (fun x => movedb per S (coords S p) d (coords S x)) (qn f) q).
  - apply zrange_NoDup.
  - apply zrange_In. exact Hq.
  - intros x IN. apply zrange_In in IN. split; [|intros ->; exact HM]. intros HX. apply (coords_inj S); auto using pos_lt.
    apply movedb_iff in HM, HX. eapply moved_functional; eauto.
Qed.

Lemma phase_target : forall per S m p d q, Forall (fun n => 1 <= n) S -> pixel S q -> movedb per S (coords S p) d (coords S q) = true ->
  in_phase per S m p d = negb (zn m q =? 0).
Proof.
  intros per S m p d q HP Hq HM. apply bool_iff. unfold in_phase. rewrite existsb_exists. split.
  - intros (x & IN & HX). unfold pixels in IN. apply zrange_In in IN. apply andb_true_iff in HX. destruct HX as [H1 H2].
    assert (x = q) as ->; [|exact H2]. apply (coords_inj S); auto using pos_lt. apply movedb_iff in HM, H1. eapply moved_functional; eauto.
  - intros H. exists q. split; [apply zrange_In; exact Hq|]. rewrite HM, H. reflexivity.
Qed.

Lemma target_cases : forall per S p d, (exists q, pixel S q /\ movedb per S (coords S p) d (coords S q) = true) \/
  (forall q, pixel S q -> movedb per S (coords S p) d (coords S q) = false).
Proof.
  intros per S p d. destruct (existsb (fun q => movedb per S (coords S p) d (coords S q)) (pixels S)) eqn:E.
  - left. apply existsb_exists in E. destruct E as (q & IN & H). exists q. split; auto. apply zrange_In in IN. exact IN.
  - right. intros q Hq. destruct (movedb per S (coords S p) d (coords S q)) eqn:M; auto. assert (X : existsb (fun q => movedb per S (coords S p) d (coords S q)) (pixels S) = true); [|congruence].
    apply existsb_exists. exists q. split; auto. apply zrange_In. exact Hq.
Qed.

Lemma value_none : forall per S f p d, (forall q, pixel S q -> movedb per S (coords S p) d (coords S q) = false) -> value_at per S f p d = 0%Qc.
Proof. intros per S f p d H. unfold value_at. rewrite sum_filter. apply sum_none. intros x IN. apply H. apply zrange_In in IN. exact IN. Qed.

Lemma target_periodic : forall S p d, Forall (fun n => 1 <= n) S -> pixel S p -> length d = length S ->
  exists q, pixel S q /\ movedb true S (coords S p) d (coords S q) = true.
Proof.
  intros S p d HP Hp HL. destruct (moved_total S (coords S p) d (pos_lt _ HP)) as (b & Hb & HM); [apply coords_inside; auto using pos_lt|auto|].
  destruct (pixel_of_coords S b Hb) as (q & Hq & <-). exists q. split; auto. apply movedb_iff. exact HM.
Qed.

(** ** Rows of paths *)

Lemma closer_length : forall g x y, closer g x y -> length y = length g /\ length x = length g.
Proof.
  induction g as [|a g IH]; intros [|b x] [|c y] H; cbn [closer] in H; try tauto. destruct H as [_ H]. apply IH in H. cbn [length]. lia.
Qed.

Lemma rows_length : forall g rows x, consecutive (some_closer g) (x :: rows) -> length x = length g -> forall r, In r (x :: rows) -> length r = length g.
Proof.
  induction rows as [|y rows IH]; intros x HC HL r IN.
  - destruct IN as [<-|[]]. exact HL.
  - destruct IN as [<-|IN]; [exact HL|]. destruct HC as [[HC _] HC']. apply (IH y); auto. apply (closer_length _ _ _ HC).
Qed.

Lemma edge_length : forall roi x, length roi = 3%nat -> In x (edge roi) -> length x = 3%nat.
Proof.
  intros roi x HL IN. unfold edge in IN. apply in_map_iff in IN. destruct IN as (r & <- & _).
  rewrite offset_length. exact HL.
Qed.

Lemma paths_length : forall mode roi paths, (length roi <= 3)%nat -> paths_of mode (three roi) paths ->
  forall rows r, In rows paths -> In r rows -> length r = 3%nat.
Proof.
  intros mode roi paths HL HP. unfold paths_of in HP. pose proof (three_length roi HL) as L3.
  assert (HE : forall x, In x (edge (three roi)) -> length x = 3%nat) by (intros; eapply edge_length; eauto).
  induction HP as [|x rows l l' (_ & H1 & _ & H2) HP IH]; intros rs r IN IR; [destruct IN|]. destruct IN as [<-|IN].
  - destruct rows as [|y rows]; [destruct IR|]. injection H1 as ->. pose proof (HE x (or_introl eq_refl)) as HX. rewrite <- HX. eapply rows_length; eauto.
  - eapply IH; eauto. intros; apply HE; right; auto.
Qed.

Lemma steps_In : forall paths a b, In (a, b) (steps paths) -> exists rows, In rows paths /\ In a rows /\ In b rows.
Proof.
  intros paths a b IN. unfold steps in IN. apply in_flat_map in IN. destruct IN as (rows & IR & IN). exists rows. split; auto.
  split; [eapply in_combine_l; eauto|]. apply in_combine_r in IN. destruct rows; [destruct IN|now right].
Qed.

(** ** Any mask *)

Lemma W2c_any : forall asrt per var roi shape mode, shapes per roi shape -> walkable mode roi -> even_sided roi ->
  exists paths, (forall rows r, In rows paths -> In r rows -> length r = 3%nat) /\
  forall cl ce f m, is_image shape cl -> is_image shape ce -> is_image shape f -> mask_of shape m ->
  exists e, fresh asrt roi per var (CallW2c cl ce f m mode) = Ok e /\ roi_shaped roi e /\
    forall r, pixel roi r -> let l := counted per roi shape (i_vals cl) (i_vals ce) (i_vals (mask1 f m)) paths r in
      first_at e r = sum_over l (fun w => value_at per (three shape) (i_vals f) (snd w) (snd (fst w))) /\
      norm_at e r = zq (lenZ l) /\
      result_at e r = Exact (quotient (first_at e r) (norm_at e r)).
Proof.
  intros asrt per var roi shape mode HS HW HE. destruct (W2c_exact asrt per var roi shape mode HS HW HE) as (paths & HP & H).
  exists paths. split. { apply (paths_length mode roi paths); auto. destruct HS as (-> & ? & _). auto. }
  intros cl ce f m Hcl Hce Hf Hm.
  destruct (H cl ce f (mask1 f m) Hcl Hce Hf) as (e & E & V). { apply mask1_ok; auto. apply HS. }
  exists e. split; [exact E|exact V].
Qed.

(** What is counted. *)
Lemma counted_In : forall per roi shape cl ce fm paths r w, In w (counted per roi shape cl ce fm paths r) ->
  (exists rows, In rows paths /\ In (snd (fst w)) rows) /\ pixel shape (snd w) /\ in_phase per (three shape) fm (snd w) (snd (fst w)) = false.
Proof.
  intros per roi shape cl ce fm paths r [[a b] p] IN. unfold counted in IN. apply filter_In in IN. destruct IN as [IN H]. cbn [fst snd] in *.
  apply andb_true_iff in H. destruct H as [_ H]. apply negb_true_iff in H. apply in_prod_iff in IN. destruct IN as [I1 I2].
  apply steps_In in I1. destruct I1 as (rows & R1 & _ & R2). split; [eauto|]. split; auto. apply filter_In in I2. destruct I2 as [I2 _]. apply zrange_In in I2. exact I2.
Qed.

(** A periodic image: every step ends at a pixel that is not masked. *)
Lemma counted_target : forall roi shape cl ce fm paths r w, shapes true roi shape ->
  (forall rows r, In rows paths -> In r rows -> length r = 3%nat) -> In w (counted true roi shape cl ce fm paths r) ->
  exists q, pixel shape q /\ zn fm q = 0 /\ forall f, value_at true (three shape) f (snd w) (snd (fst w)) = qn f q.
Proof.
  intros roi shape cl ce fm paths r w HS HL IN. destruct (counted_In _ _ _ _ _ _ _ _ _ IN) as ((rows & R1 & R2) & Hp & HM).
  assert (H3 : (length shape <= 3)%nat) by apply HS. assert (HP : Forall (fun n => 1 <= n) shape) by apply HS.
  pose proof (three_pos _ HP) as HP3. pose proof (zprod3 _ H3) as Z3. pose proof (three_length _ H3) as L3.
  destruct (target_periodic (three shape) (snd w) (snd (fst w))) as (q & Hq & HT); auto.
  { unfold pixel in *. rewrite Z3. exact Hp. } { rewrite L3. eapply HL; eauto. }
  exists q. split. { unfold pixel in *. rewrite <- Z3. exact Hq. }
  rewrite (phase_target true (three shape) fm (snd w) (snd (fst w)) q) in HM by auto. apply negb_false_iff, Z.eqb_eq in HM.
  split; auto. intros f. apply value_target; auto.
Qed.

Lemma quotient_nonzero : forall s n, n <> 0%Qc -> quotient s n = (s / n)%Qc.
Proof. intros s n H. unfold quotient. destruct (Qceq_b n 0) eqn:E; auto. apply Qceq_b_iff in E. contradiction. Qed.

Lemma W2c_between : forall asrt var roi shape cl ce f m mode lo hi, shapes true roi shape -> walkable mode roi -> even_sided roi ->
  is_image shape cl -> is_image shape ce -> is_image shape f -> mask_of shape m ->
  (forall p, pixel shape p -> zn (i_vals (mask1 f m)) p = 0 -> (lo <= qn (i_vals f) p)%Qc /\ (qn (i_vals f) p <= hi)%Qc) ->
  exists e, fresh asrt roi true var (CallW2c cl ce f m mode) = Ok e /\
    forall r, pixel roi r -> norm_at e r <> 0%Qc -> exists q, result_at e r = Exact q /\ (lo <= q)%Qc /\ (q <= hi)%Qc.
Proof.
  intros asrt var roi shape cl ce f m mode lo hi HS HW HE Hcl Hce Hf Hm HB.
  destruct (W2c_any asrt true var roi shape mode HS HW HE) as (paths & HL & H). destruct (H cl ce f m Hcl Hce Hf Hm) as (e & E & _ & V).
  exists e. split; auto. intros r Hr HN. destruct (V r Hr) as (V1 & V2 & V3). cbv zeta in *. set (l := counted _ _ _ _ _ _ _ _) in *.
  exists (first_at e r / norm_at e r)%Qc. split; [rewrite V3, quotient_nonzero; auto|].
  assert (HP : (0 < norm_at e r)%Qc).
  { rewrite V2 in *. rewrite <- zq_0. apply zq_lt. pose proof (lenZ_nonneg _ l). assert (lenZ l <> 0); [|lia]. intros Z0. apply HN. rewrite Z0. apply zq_0. }
  assert (HT : forall w, In w l -> (lo <= value_at true (three shape) (i_vals f) (snd w) (snd (fst w)))%Qc /\ (value_at true (three shape) (i_vals f) (snd w) (snd (fst w)) <= hi)%Qc).
  { intros w IN. unfold l in IN. destruct (counted_target _ _ _ _ _ _ _ _ HS HL IN) as (q & Hq & HM & HV). rewrite HV. apply HB; auto. }
  assert (B1 : (lo * norm_at e r <= first_at e r)%Qc).
  { rewrite V1, V2, <- sum_one, <- sum_scale. apply sum_le. intros w IN. replace (lo * 1)%Qc with lo by ring. apply HT. exact IN. }
  assert (B2 : (first_at e r <= hi * norm_at e r)%Qc).
  { rewrite V1, V2, <- sum_one, <- sum_scale. apply sum_le. intros w IN. replace (hi * 1)%Qc with hi by ring. apply HT. exact IN. }
  clear -HP B1 B2 HN. split.
  - replace lo with ((lo * norm_at e r) * / norm_at e r)%Qc by (field; auto). apply div_mono; auto.
  - replace hi with ((hi * norm_at e r) * / norm_at e r)%Qc by (field; auto). apply div_mono; auto.
Qed.

Lemma W2c_constant : forall asrt var roi shape cl ce f m mode c, shapes true roi shape -> walkable mode roi -> even_sided roi ->
  is_image shape cl -> is_image shape ce -> is_image shape f -> mask_of shape m -> (forall x, In x (i_vals f) -> x = c) ->
  exists e, fresh asrt roi true var (CallW2c cl ce f m mode) = Ok e /\
    forall r, pixel roi r -> norm_at e r <> 0%Qc -> result_at e r = Exact c.
Proof.
  intros asrt var roi shape cl ce f m mode c HS HW HE Hcl Hce Hf Hm HC.
  destruct (W2c_between asrt var roi shape cl ce f m mode c c HS HW HE Hcl Hce Hf Hm) as (e & E & V).
  { intros p Hp _. rewrite (HC (qn (i_vals f) p)); [split; apply Qcle_refl|]. apply qn_In. rewrite (proj2 Hf). exact Hp. }
  exists e. split; auto. intros r Hr HN. destruct (V r Hr HN) as (q & -> & A & B). f_equal. apply Qcle_antisym; auto.
Qed.

Lemma W2c_linear : forall asrt per var roi shape a b cl ce f f' m mode, shapes per roi shape -> walkable mode roi -> even_sided roi ->
  is_image shape cl -> is_image shape ce -> is_image shape f -> is_image shape f' -> mask_of shape m ->
  exists e e1 e2, fresh asrt roi per var (CallW2c cl ce (blend a b f f') m mode) = Ok e /\
    fresh asrt roi per var (CallW2c cl ce f m mode) = Ok e1 /\ fresh asrt roi per var (CallW2c cl ce f' m mode) = Ok e2 /\
    forall r, pixel roi r -> norm_at e r = norm_at e1 r /\ norm_at e r = norm_at e2 r /\
      first_at e r = (a * first_at e1 r + b * first_at e2 r)%Qc /\
      exists q1 q2, result_at e1 r = Exact q1 /\ result_at e2 r = Exact q2 /\ result_at e r = Exact (a * q1 + b * q2)%Qc.
Proof.
  intros asrt per var roi shape a b cl ce f f' m mode HS HW HE Hcl Hce Hf Hf' Hm.
  destruct (W2c_any asrt per var roi shape mode HS HW HE) as (paths & HL & H).
  destruct (H cl ce (blend a b f f') m Hcl Hce (blend_image _ _ _ _ _ Hf Hf') Hm) as (e & E & _ & V).
  destruct (H cl ce f m Hcl Hce Hf Hm) as (e1 & E1 & _ & V1). destruct (H cl ce f' m Hcl Hce Hf' Hm) as (e2 & E2 & _ & V2).
  exists e, e1, e2. split; auto. split; auto. split; auto. intros r Hr.
  destruct (V r Hr) as (A1 & A2 & A3). destruct (V1 r Hr) as (B1 & B2 & B3). destruct (V2 r Hr) as (C1 & C2 & C3). cbv zeta in *.
  assert (M1 : i_vals (mask1 (blend a b f f') m) = i_vals (mask1 f m)) by reflexivity.
  assert (M2 : i_vals (mask1 f' m) = i_vals (mask1 f m)). { destruct m; [reflexivity|]. cbn [mask1]. rewrite (proj1 Hf), (proj1 Hf'). reflexivity. }
  rewrite M1 in A1, A2. rewrite M2 in C1, C2. set (l := counted _ _ _ _ _ _ _ _) in *.
  assert (N1 : norm_at e r = norm_at e1 r) by congruence. assert (N2 : norm_at e r = norm_at e2 r) by congruence.
  assert (HP : Forall (fun n => 1 <= n) (three shape)) by (apply three_pos; apply HS).
  assert (Z3 : zprod (three shape) = zprod shape) by (apply zprod3; apply HS).
  assert (F : first_at e r = (a * first_at e1 r + b * first_at e2 r)%Qc).
  { rewrite A1, B1, C1, <- !sum_scale, <- sum_plus. apply sum_ext. intros w _.
    destruct (target_cases per (three shape) (snd w) (snd (fst w))) as [(q & Hq & HT)|HT].
    - rewrite !(value_target per (three shape) _ (snd w) (snd (fst w)) q) by auto. unfold blend. cbn [i_vals].
      destruct Hf as [_ L1], Hf' as [_ L2]. unfold pixel in Hq. rewrite blend_qn by lia. reflexivity.
    - rewrite !value_none by auto. ring. }
  split; auto. split; auto. split; auto. eexists. eexists. split; [exact B3|]. split; [exact C3|]. rewrite A3, F, <- N1, <- N2. f_equal.
  unfold quotient. destruct (Qceq_b (norm_at e r) 0); [ring|unfold Qcdiv; ring].
Qed.

(** Masked pixels do not matter, periodic or not. *)
Lemma W2c_ignores : forall asrt per var roi shape cl ce f f' fm mode, shapes per roi shape -> walkable mode roi -> even_sided roi ->
  is_image shape cl -> is_image shape ce -> same_unmasked shape fm f f' ->
  exists e e', fresh asrt roi per var (CallW2c cl ce f (Some fm) mode) = Ok e /\ fresh asrt roi per var (CallW2c cl ce f' (Some fm) mode) = Ok e' /\
    forall r, pixel roi r -> first_at e r = first_at e' r /\ norm_at e r = norm_at e' r /\ result_at e r = result_at e' r.
Proof.
  intros asrt per var roi shape cl ce f f' fm mode HS HW HE Hcl Hce (Hf & Hf' & Hm & HU).
  destruct (W2c_any asrt per var roi shape mode HS HW HE) as (paths & HL & H).
  destruct (H cl ce f (Some fm) Hcl Hce Hf Hm) as (e & E & _ & V). destruct (H cl ce f' (Some fm) Hcl Hce Hf' Hm) as (e' & E' & _ & V').
  exists e, e'. split; auto. split; auto. intros r Hr. destruct (V r Hr) as (A1 & A2 & A3). destruct (V' r Hr) as (B1 & B2 & B3). cbv zeta in *. cbn [mask1] in *.
  assert (HP : Forall (fun n => 1 <= n) (three shape)) by (apply three_pos; apply HS).
  assert (Z3 : zprod (three shape) = zprod shape) by (apply zprod3; apply HS).
  assert (F : first_at e r = first_at e' r).
  { rewrite A1, B1. apply sum_ext. intros w IN. destruct (counted_In _ _ _ _ _ _ _ _ _ IN) as (_ & Hp & HM).
    destruct (target_cases per (three shape) (snd w) (snd (fst w))) as [(q & Hq & HT)|HT].
    - rewrite !(value_target per (three shape) _ (snd w) (snd (fst w)) q) by auto. rewrite (phase_target per (three shape) _ (snd w) (snd (fst w)) q) in HM by auto.
      apply negb_false_iff, Z.eqb_eq in HM. unfold pixel in Hq. rewrite Z3 in Hq. unfold qn. specialize (HU q Hq HM).
      assert (N : forall l : list Qc, nth (Z.to_nat q) l 0%Qc = match nth_error l (Z.to_nat q) with Some x => x | None => 0%Qc end).
      { intros l. destruct (nth_error l (Z.to_nat q)) as [x|] eqn:X; [apply nth_error_nth; exact X|apply nth_overflow; apply nth_error_None; exact X]. }
      rewrite !N, HU. reflexivity.
    - rewrite !value_none by auto. reflexivity. }
  assert (N : norm_at e r = norm_at e' r) by congruence. split; auto. split; auto. rewrite A3, B3, F, N. reflexivity.
Qed.
