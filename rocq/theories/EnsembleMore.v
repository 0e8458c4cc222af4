(** * EnsembleMore: statistics without masks when not periodic; W2 for any weights *)

From Coq Require Import ZArith QArith Qcanon List Bool Lia.
From Verif Require Import Base BaseLemmas Array3 Array3Lemmas Path SpecCluster SpecDilate Ensemble SpecEnsemble EnsembleSums EnsembleLin EnsembleWindow EnsembleTop EnsembleDist.
Import ListNotations.
Open Scope Z_scope.

Lemma distance_axis_centred : forall asrt per var roi e axis, reachable asrt roi per var e -> Forall (fun n => 1 <= n < 2 ^ 62) roi -> 0 <= axis < lenZ roi ->
  exists d, distance_axis asrt e axis = Ok d /\ lenZ d = zprod roi /\
    forall r, pixel roi r -> let k := nth (Z.to_nat axis) (coords roi r) 0 in let n := nth (Z.to_nat axis) roi 0 in
      qn d r = zq (k - (n - 1) / 2).
Proof.
  intros asrt per var roi e axis HE HF HA. destruct (distance_axis_reach asrt per var roi e axis HE HF HA) as (d & E & L & V).
  exists d. split; auto. split; auto. intros r Hr k n. destruct (V r Hr) as [V1 V2].
  assert (HN : 1 <= n < 2 ^ 62). { unfold n. rewrite Forall_forall in HF. apply HF, nth_In. unfold lenZ in HA. lia. }
  pose proof (pad_axis_eq n HN) as P. fold k n in V1, V2. rewrite P in V1. cbn [fst] in V1. exact V1.
Qed.

Lemma S2_unmasked : forall asrt var roi shape f g, shapes false roi shape -> is_image shape f -> is_image shape g ->
  exists e, fresh asrt roi false var (CallS2 f g None) = Ok e /\ roi_shaped roi e /\
    forall r, pixel roi r -> let l := pairs false shape (offset roi r) in
      first_at e r = sum_over l (fun pq => qn (i_vals f) (fst pq) * qn (i_vals g) (snd pq))%Qc /\
      norm_at e r = zq (lenZ l) /\ result_at e r = Exact (quotient (first_at e r) (norm_at e r)).
Proof.
  intros asrt var roi shape f g HS Hf Hg. pose proof (zeros_mask shape (shape_pos _ _ _ HS)) as HZ.
  destruct (S2_exact asrt false var roi shape HS f g (zeros shape) (zeros shape) Hf Hg HZ HZ) as (e & E & SH & V).
  exists e. rewrite (none_S2 asrt roi false var shape f g) by apply Hf. split; auto. split; auto. intros r Hr. specialize (V r Hr). cbv zeta in V.
  unfold zeros in V. cbn [i_vals] in V. rewrite seen_zeros in V. exact V.
Qed.

Lemma C2_unmasked : forall asrt var roi shape f g, shapes false roi shape -> is_image shape f -> is_image shape g ->
  exists e, fresh asrt roi false var (CallC2 f g None) = Ok e /\ roi_shaped roi e /\
    forall r, pixel roi r -> let l := pairs false shape (offset roi r) in
      first_at e r = zq (lenZ (filter (same_label (i_vals f) (i_vals g)) l)) /\
      norm_at e r = zq (lenZ l) /\ result_at e r = Exact (quotient (first_at e r) (norm_at e r)).
Proof.
  intros asrt var roi shape f g HS Hf Hg. pose proof (zeros_mask shape (shape_pos _ _ _ HS)) as HZ.
  destruct (C2_exact asrt false var roi shape HS f g (zeros shape) (zeros shape) Hf Hg HZ HZ) as (e & E & SH & V).
  exists e. rewrite (none_C2 asrt roi false var shape f g) by apply Hf. split; auto. split; auto. intros r Hr. specialize (V r Hr). cbv zeta in V.
  unfold zeros in V. cbn [i_vals] in V. rewrite seen_zeros in V. exact V.
Qed.


(** W2: the result for any weights; the norm is replaced by one unless it is positive. *)
Lemma W2_result : forall asrt per var roi shape w g gm, shapes per roi shape -> is_image shape w -> is_image shape g -> is_mask shape gm ->
  exists e, fresh asrt roi per var (CallW2 w g (Some gm)) = Ok e /\
    forall r, pixel roi r -> (~ (0 < norm_at e r)%Qc -> result_at e r = Exact (first_at e r)).
Proof.
  intros asrt per var roi shape f g gm HS Hf Hg Hgm. destruct (shapes_dims3 _ _ _ HS) as (n0 & n1 & n2 & k0 & k1 & k2 & HD).
  destruct (fresh_lin asrt per var roi shape n0 n1 n2 k0 k1 k2 S_W2 (CallW2 f g (Some gm)) _ HD (W2_lin asrt per var roi shape n0 n1 n2 k0 k1 k2 HD f g gm Hf Hg Hgm))
    as (e & E & O & SH & V).
  exists e. split; auto. intros r Hr HN. destruct (V r Hr) as (Hr' & _). rewrite (result_at_eq _ _ _ _ _ _ _ _ _ O Hr'). cbv zeta. f_equal. unfold safe.
  destruct (Qclt_b 0 (norm_at e r)) eqn:EB; [apply Qclt_b_iff in EB; contradiction|]. field. discriminate.
Qed.

Lemma W2_unmasked : forall asrt var roi shape w g, shapes false roi shape -> is_image shape w -> is_image shape g ->
  exists e, fresh asrt roi false var (CallW2 w g None) = Ok e /\ roi_shaped roi e /\
    forall r, pixel roi r -> let l := pairs false shape (offset roi r) in
      first_at e r = sum_over l (fun pq => qn (i_vals w) (fst pq) * qn (i_vals g) (snd pq))%Qc /\
      norm_at e r = sum_over l (fun pq => qn (i_vals w) (fst pq)) /\
      ((0 < norm_at e r)%Qc -> result_at e r = Exact (first_at e r / norm_at e r)%Qc).
Proof.
  intros asrt var roi shape f g HS Hf Hg. pose proof (zeros_mask shape (shape_pos _ _ _ HS)) as HZ.
  destruct (W2_exact asrt false var roi shape HS f g (zeros shape) Hf Hg HZ) as (e & E & SH & V).
  exists e. rewrite (none_W2 asrt roi false var shape f g) by apply Hf. split; auto. split; auto. intros r Hr. specialize (V r Hr). cbv zeta in V.
  unfold zeros in V. cbn [i_vals] in V.
  rewrite (filter_all _ (seen shape [] _ _)) in V. 2:{ intros [p q] _. unfold seen. cbn [fst snd]. rewrite !zn_repeat0. unfold zn. destruct (Z.to_nat p); reflexivity. }
  exact V.
Qed.

Lemma hh_unmasked : forall asrt var roi shape f, shapes false roi shape -> is_image shape f ->
  exists e, fresh asrt roi false var (CallHH f None) = Ok e /\ roi_shaped roi e /\
    forall r, pixel roi r -> let l := pairs false shape (offset roi r) in
      first_at e r = sum_over l (sqdiff (i_vals f)) /\
      norm_at e r = zq (lenZ l) /\ result_at e r = Root (quotient (first_at e r) (norm_at e r)).
Proof.
  intros asrt var roi shape f HS Hf. pose proof (zeros_mask shape (shape_pos _ _ _ HS)) as HZ.
  destruct (hh_exact asrt false var roi shape HS f (zeros shape) Hf HZ) as (e & E & SH & V).
  exists e. rewrite (none_HH asrt roi false var shape f) by apply Hf. split; auto. split; auto. intros r Hr. specialize (V r Hr). cbv zeta in V.
  unfold zeros in V. cbn [i_vals] in V. rewrite seen_zeros in V. destruct V as (V1 & V2 & V3 & V4). auto.
Qed.
