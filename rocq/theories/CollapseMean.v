(** * CollapseMean: center pixels of an image that is not periodic, in integers *)

From Coq Require Import ZArith List Bool Reals Lra Lia Permutation.
From Flocq Require Import Core.
From Verif Require Import Base BaseLemmas SpecCluster Cluster ClusterGeom Center SpecCenter CenterProofs CenterTop CenterLabels SpecEnsemble Collapse SpecCollapse CollapseProofs.
Import ListNotations.
Open Scope Z_scope.

Lemma having_carries : forall shape labels v, carries shape labels v (having shape labels v).
Proof.
  intros. unfold carries, having, pixels. split.
  - apply NoDup_filter, zrange_NoDup.
  - intro p. rewrite filter_In, Z.eqb_eq, zrange_In. reflexivity.
Qed.

Lemma sum_total : forall shape labels v k, (k < length shape)%nat ->
  total (coordinate k) (positions_of shape (having shape labels v)) = IZR (sum_along shape labels v k).
Proof.
  intros shape labels v k K. unfold sum_along. induction (having shape labels v) as [|p l IH]; [reflexivity|].
  cbn [positions_of map total fold_right]. rewrite plus_IZR, <- IH. f_equal. unfold coordinate. change 0%R with (IZR 0). now rewrite map_nth.
Qed.

Lemma near_closest : forall n c z, 0 <= z < n -> (Rabs (c - IZR z) < / 2 \/ (Rabs (c - IZR z) = / 2 /\ Z.even z = true))%R -> closest n c z.
Proof.
  intros n c z Z0 H. split; auto. intros y Y NE.
  assert (A : forall a b, (a + 1 <= b)%Z -> (IZR a + 1 <= IZR b)%R) by (intros a b AB; apply IZR_le in AB; rewrite plus_IZR in AB; lra).
  assert (N : (Rabs (c - IZR z) <= / 2)%R) by (destruct H as [H|[H _]]; lra).
  assert (D : (/ 2 <= Rabs (c - IZR y))%R).
  { apply Rabs_le_inv in N. destruct (Z_lt_le_dec y z) as [L|L]; [pose proof (A y z ltac:(lia)); rewrite Rabs_pos_eq by lra; lra|].
    pose proof (A z y ltac:(lia)). rewrite Rabs_left1 by lra. lra. }
  destruct H as [H|[H E]]; [left; lra|]. destruct (Rle_lt_or_eq_dec _ _ D); [left; lra|right; split; [lra|auto]].
Qed.

Lemma closest_near : forall n c z, (0 <= c <= IZR (n - 1))%R -> closest n c z -> (Rabs (c - IZR z) < / 2 \/ (Rabs (c - IZR z) = / 2 /\ Z.even z = true))%R.
Proof.
  intros n c z C [Z0 H]. destruct (Rlt_le_dec (Rabs (c - IZR z)) (/ 2)) as [L|L]; [now left|right].
  assert (Y : exists y, 0 <= y < n /\ y <> z /\ (Rabs (c - IZR y) <= Rabs (c - IZR z))%R /\ ((Rabs (c - IZR y) = Rabs (c - IZR z))%R -> Rabs (c - IZR z) = / 2)%R).
  { destruct (Rle_lt_dec (IZR z) c) as [G|G].
    - rewrite Rabs_pos_eq in L |- * by lra. exists (z + 1).
      assert (z < n - 1) by (apply lt_IZR; lra). split; [lia|]. split; [lia|]. rewrite plus_IZR. unfold Rabs. destruct Rcase_abs; split; intros; lra.
    - rewrite Rabs_left in L |- * by lra. exists (z - 1).
      assert (0 < z) by (apply lt_IZR; lra). split; [lia|]. split; [lia|]. rewrite minus_IZR. unfold Rabs. destruct Rcase_abs; split; intros; lra. }
  destruct Y as (y & Y & NE & A & B). destruct (H y Y NE) as [Q|[Q E]]; [lra|]. split; auto.
Qed.

Section Mean.
Variables (shape labels : list Z).
Hypothesis HS : shape <> [].
Hypothesis HF : Forall (fun n => 1 <= n) shape.
Hypothesis HL : lenZ labels = zprod shape.

Lemma nth_coords_range : forall p k, pixel shape p -> (k < length shape)%nat -> 0 <= nth k (coords shape p) 0 < nth k shape 0.
Proof.
  intros p k P K. assert (PS : Forall (fun n => 0 < n) shape) by (eapply Forall_impl; [|exact HF]; cbn; intros; lia).
  pose proof (coords_inside shape p PS P) as IN. revert IN K. generalize (coords shape p). clear. revert k.
  induction shape as [|n s IH]; intros k [|x c]; cbn [inside length]; intros IN K; try tauto; try lia. destruct k; cbn; [lia|]. apply IH; [tauto|lia].
Qed.

Lemma mean_along : forall v k, occurs shape labels v -> (k < length shape)%nat ->
  exists c, center_along false shape labels v k c /\ (c * IZR (lenZ (having shape labels v)) = IZR (sum_along shape labels v k))%R /\
    0 < lenZ (having shape labels v) /\ (0 <= c <= IZR (nth k shape 0%Z - 1))%R.
Proof.
  intros v k (p & P & V) K. pose proof (having_carries shape labels v) as C.
  assert (IN : In p (having shape labels v)) by (apply C; split; auto).
  assert (N : positions_of shape (having shape labels v) <> []). { intro E. apply map_eq_nil in E. rewrite E in IN. destruct IN. }
  assert (K' : (k < length (map IZR shape))%nat) by now rewrite map_length.
  destruct (center_mean (map IZR shape) (positions_of shape (having shape labels v)) k (positions_fit _ _) N K') as (r & c & E & L & AX & T & B).
  exists c. split; [|split; [|split]].
  - intros ps C'. exists r. split; auto. rewrite <- E. apply center_perm, Permutation_map. eapply carries_perm; eauto.
  - rewrite sum_total in T by auto. unfold positions_of in T. rewrite map_length in T. unfold lenZ. rewrite <- INR_IZR_INZ. exact T.
  - unfold lenZ. destruct (having shape labels v); [destruct IN|cbn; lia].
  - apply B. intros q Q. apply in_map_iff in Q. destruct Q as (i & <- & I). apply C in I. destruct I as [PI _].
    unfold coordinate. change 0%R with (IZR 0). rewrite map_nth. pose proof (nth_coords_range i k PI K). split; apply IZR_le; lia.
Qed.

Lemma scaled : forall c n s z, 0 < n -> (c * IZR n = IZR s)%R ->
  ((Rabs (c - IZR z) < / 2)%R <-> 2 * Z.abs (n * z - s) < n) /\ ((Rabs (c - IZR z) = / 2)%R <-> 2 * Z.abs (n * z - s) = n).
Proof.
  intros c n s z N E. apply IZR_lt in N.
  assert (A : (IZR (2 * Z.abs (n * z - s)) = 2 * IZR n * Rabs (c - IZR z))%R).
  { rewrite mult_IZR, abs_IZR, minus_IZR, mult_IZR, <- E. replace (IZR n * IZR z - c * IZR n)%R with (IZR n * (- (c - IZR z)))%R by ring.
    rewrite Rabs_mult, Rabs_Ropp, (Rabs_pos_eq (IZR n)) by lra. ring. }
  set (d := Rabs (c - IZR z)) in *.
  split; split; intro H.
  - apply lt_IZR. rewrite A. nra.
  - apply IZR_lt in H. rewrite A in H. apply (Rmult_lt_reg_l (2 * IZR n)); nra.
  - apply eq_IZR. rewrite A. rewrite H. field.
  - apply (f_equal IZR) in H. rewrite A in H. apply (Rmult_eq_reg_l (2 * IZR n)); [rewrite H; field|lra].
Qed.

Lemma mean_centre : forall v p, occurs shape labels v -> (centre_pixel false shape labels v p <-> mean_pixel shape labels v p).
Proof.
  intros v p O. unfold centre_pixel, mean_pixel. split; intros [P H]; (split; auto); intros k K; specialize (H k K);
    destruct (mean_along v k O K) as (c & C & T & N & B); destruct (scaled c _ _ (nth k (coords shape p) 0) N T) as [S1 S2].
  - destruct H as (c' & C' & X). pose proof (having_carries shape labels v) as HC.
    destruct (C _ HC) as (r & E & A). destruct (C' _ HC) as (r' & E' & A'). assert (c = c') by (unfold at_axis in *; congruence). subst c'.
    apply closest_near in X; auto. destruct X as [X|[X Y]]; [left; apply S1; auto|right; split; [apply S2; auto|auto]].
  - exists c. split; auto. apply near_closest; [apply nth_coords_range; auto|]. cbv zeta in H. destruct H as [H|[H Y]]; [left; apply S1; auto|right; split; [apply S2; auto|auto]].
Qed.

End Mean.
