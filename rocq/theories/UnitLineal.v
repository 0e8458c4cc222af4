(** * UnitLineal: a stretch of two pixels is a pair of pixels (proofs only) *)

From Coq Require Import ZArith QArith Qcanon List Bool Lia.
From Verif Require Import Base BaseLemmas ClusterGeom Array3 Array3Lemmas Path SpecPath
  Ensemble SpecEnsemble EnsembleSums EnsembleTop SpecSymmetry SpecAlgebra DerivedAlgebra LinealClusters SpecLineal LinealTop SpecAxis AxisTop UnitTop SpecCluster.
Import ListNotations.
Open Scope Z_scope.

Lemma count_sum : forall A (b : A -> bool) l, zq (lenZ (filter b l)) = sum_over l (fun x => if b x then 1%Qc else 0%Qc).
Proof. intros A b l. rewrite <- sum_filter, sum_one. reflexivity. Qed.

Lemma in_phase_iff : forall per shape f p d, in_phase per shape f p d = true <->
  exists q, pixel shape q /\ movedb per shape (coords shape p) d (coords shape q) = true /\ zn f q <> 0.
Proof.
  intros. unfold in_phase. rewrite existsb_exists. split.
  - intros (q & Hq & H). apply andb_true_iff in H. destruct H as [H1 H2]. apply negb_true_iff, Z.eqb_neq in H2. exists q. unfold pixels in Hq. apply zrange_In in Hq. auto.
  - intros (q & Hq & H1 & H2). exists q. split; [unfold pixels; apply zrange_In; exact Hq|]. apply Z.eqb_neq in H2. rewrite H1, H2. reflexivity.
Qed.

Lemma phase_here : forall per shape f p a, Forall (fun n => 1 <= n) shape -> pixel shape p ->
  in_phase per shape f p (along (length shape) a 0) = negb (zn f p =? 0).
Proof.
  intros per shape f p a HN Hp. assert (HP : Forall (fun n => 0 < n) shape) by (eapply Forall_impl; try exact HN; intros; simpl in *; lia).
  assert (Z0 : zero_offset (along (length shape) a 0)).
  { intros z Hz. unfold along in Hz. apply in_map_iff in Hz. destruct Hz as (i & <- & _). destruct (Nat.eqb i a); reflexivity. }
  apply eq_true_iff_eq. rewrite in_phase_iff, negb_true_iff, Z.eqb_neq. split.
  - intros (q & Hq & M & N). apply movedb_zero in M; auto using along_length, coords_inside. apply (coords_inj shape) in M; auto. congruence.
  - intros N. exists p. split; auto. split; auto. apply movedb_zero; auto using along_length, coords_inside.
Qed.

Lemma straight_near : forall per shape f a t p, Forall (fun n => 1 <= n) shape -> pixel shape p -> -1 <= t <= 1 ->
  straight per shape f a t p = negb (zn f p =? 0) && in_phase per shape f p (along (length shape) a t).
Proof.
  intros per shape f a t p HN Hp Ht. unfold straight. assert (T : t = -1 \/ t = 0 \/ t = 1) by lia.
  pose proof (phase_here per shape f p a HN Hp) as H0.
  destruct T as [->|[->| ->]].
  - change (zrange (Z.min 0 (-1)) (Z.max 0 (-1) + 1)) with [-1; 0]. cbn [forallb]. rewrite H0, andb_true_r, andb_comm. reflexivity.
  - change (zrange (Z.min 0 0) (Z.max 0 0 + 1)) with [0]. cbn [forallb]. rewrite H0. destruct (negb _); reflexivity.
  - change (zrange (Z.min 0 1) (Z.max 0 1 + 1)) with [0; 1]. cbn [forallb]. rewrite H0, andb_true_r. reflexivity.
Qed.

Lemma pairs_straight : forall per shape f a t, is_image shape f -> Forall (fun n => 1 <= n) shape -> -1 <= t <= 1 ->
  sum_over (pairs per shape (along (length shape) a t)) (fun pq => qn (i_vals (indicator f)) (fst pq) * qn (i_vals (indicator f)) (snd pq))%Qc =
  zq (lenZ (filter (straight per shape (i_vals f) a t) (pixels shape))).
Proof.
  intros per shape f a t Hf HN Ht. assert (HP : Forall (fun n => 0 < n) shape) by (eapply Forall_impl; try exact HN; intros; simpl in *; lia).
  rewrite count_sum. unfold pairs. rewrite sum_filter, sum_prod. apply sum_ext. intros p IP. unfold pixels in IP. apply zrange_In in IP. cbn [fst snd].
  rewrite straight_near, (indicator_qn shape f p) by auto. set (d := along (length shape) a t).
  destruct (in_phase per shape (i_vals f) p d) eqn:EP.
  - apply in_phase_iff in EP. destruct EP as (q & Hq & M & N).
    rewrite (sum_single (pixels shape) (fun y => movedb per shape (coords shape p) d (coords shape y)) _ q).
    + rewrite (indicator_qn shape f q), (proj2 (Z.eqb_neq _ _) N) by auto. destruct (zn (i_vals f) p =? 0); reflexivity.
    + apply zrange_NoDup.
    + unfold pixels. apply zrange_In. exact Hq.
    + intros x IX. unfold pixels in IX. apply zrange_In in IX. split; [|intros ->; exact M]. intros MX. apply (coords_inj shape); auto.
      apply movedb_iff in M, MX. eapply moved_functional; eauto.
  - rewrite andb_false_r. rewrite (sum_ext _ _ _ (fun _ => 0%Qc)); [apply sum_zero|]. intros q IQ. unfold pixels in IQ. apply zrange_In in IQ.
    destruct (movedb per shape (coords shape p) d (coords shape q)) eqn:M; auto.
    rewrite (indicator_qn shape f q) by auto. destruct (Z.eqb_spec (zn (i_vals f) q) 0) as [Z|N]; [ring|].
    assert (X : in_phase per shape (i_vals f) p d = true) by (apply in_phase_iff; exists q; auto). congruence.
Qed.

Lemma L_is_S2_near : forall asrt per var roi shape f mode, shapes per roi shape -> is_image shape f -> coverable mode roi -> (exists n, In n roi /\ 1 < n) ->
  exists e e', fresh asrt roi per var (CallL f mode) = Ok e /\
    fresh asrt roi per var (CallS2 (indicator f) (indicator f) None) = Ok e' /\
    forall r a t, pixel roi r -> (a < length roi)%nat -> -1 <= t <= 1 -> offset roi r = along (length roi) a t ->
      result_at e r = Exact (first_at e' r / zq (zprod shape))%Qc /\ (per = true -> result_at e r = result_at e' r).
Proof.
  intros asrt per var roi shape f mode HS Hf HC HB.
  destruct (L_axis asrt per var roi shape f mode HS Hf HC HB) as (e & E & V).
  destruct (S2_any asrt per var roi shape (indicator f) (indicator f) None HS (each_image _ _ _ _ _ Hf) (each_image _ _ _ _ _ Hf) I) as (e' & E' & _ & V').
  exists e, e'. split; [exact E|]. split; [exact E'|]. intros r a t Hr Ha Ht O. destruct (V' r Hr) as (B1 & _ & B3 & B4). cbv zeta in *.
  cbn [mask2 fst snd zeros i_vals] in B1, B3. rewrite seen_zeros in B1, B3.
  assert (LL : length roi = length shape) by apply HS. assert (HN : Forall (fun n => 1 <= n) shape) by apply HS.
  assert (R : result_at e r = Exact (first_at e' r / zq (zprod shape))%Qc).
  { rewrite (V r a t Hr Ha O), B1, O, LL, pairs_straight by auto. reflexivity. }
  split; [exact R|]. intros ->. rewrite R, B4. do 2 f_equal. rewrite sum_one, (pairs_periodic_count roi) in B3 by auto. rewrite B3.
  destruct (image_count shape HN) as [Z1 _]. rewrite DerivedAlgebra.safe_pos; [reflexivity|]. rewrite <- zq_0. apply zq_lt. lia.
Qed.
