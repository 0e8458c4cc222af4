(** * RepeatTop: proofs of C155 *)

From Coq Require Import ZArith QArith Qcanon List Bool Lia.
From Verif Require PositiveDefinite.
From Verif Require Import Base BaseLemmas Array3 Array3Lemmas
  Ensemble SpecEnsemble EnsembleSums EnsembleTop SpecSymmetry SpecAlgebra DerivedAlgebra DerivedRelations Links OneCluster SpecRepeat SpecCluster.
Import ListNotations.
Open Scope Z_scope.

Lemma sum_zero_iff : forall A (l : list A) F, (forall x, In x l -> (0 <= F x)%Qc) -> (sum_over l F = 0%Qc <-> forall x, In x l -> F x = 0%Qc).
Proof.
  intros A l F H. split.
  - intros E x IN. symmetry. apply (sum_equal A l (fun _ => 0%Qc) F); auto. rewrite sum_zero. symmetry. exact E.
  - intros Z. rewrite (sum_ext _ l F (fun _ => 0%Qc)); auto. apply sum_zero.
Qed.

Lemma sqdiff_zero : forall f p q, sqdiff f (p, q) = 0%Qc <-> qn f p = qn f q.
Proof.
  intros f p q. unfold sqdiff. cbn [fst snd]. split.
  - intros E. apply Qcmult_integral in E. assert (D : (qn f q - qn f p = 0)%Qc) by tauto.
    replace (qn f p) with (qn f q - (qn f q - qn f p))%Qc by ring. rewrite D. ring.
  - intros ->. ring.
Qed.

Lemma sums_repeat : forall per shape f d, sum_over (pairs per shape d) (sqdiff f) = 0%Qc <-> repeats per shape f d.
Proof.
  intros per shape f d. rewrite sum_zero_iff by (intros [p q] _; unfold sqdiff; apply Qc_sq_nonneg). unfold repeats. split.
  - intros H p q Hp Hq M. apply sqdiff_zero. apply H. apply pairs_In. split; [exact Hp|]. split; [exact Hq|]. apply movedb_iff. exact M.
  - intros H [p q] IN. apply pairs_In in IN. destruct IN as (Hp & Hq & M). apply movedb_iff in M. apply sqdiff_zero. auto.
Qed.

Lemma ratio_equal : forall a b n : Qc, (0 < n)%Qc -> (a / n = b / n)%Qc -> a = b.
Proof.
  intros a b n Hn H. assert (NZ : n <> 0%Qc) by (apply not_eq_sym, Qclt_not_eq; exact Hn).
  transitivity (a / n * n)%Qc; [field; exact NZ|]. rewrite H. field; exact NZ.
Qed.

Lemma root_zero : forall a n, (0 <= a)%Qc -> (root (Exact (a / safe n)%Qc) = Root 0%Qc <-> a = 0%Qc).
Proof.
  intros a n Ha. pose proof (safe_gt n) as S. pose proof (PositiveDefinite.div_nonneg a (safe n) S Ha) as N.
  unfold root. destruct (Qclt_b _ 0) eqn:L. { apply Qclt_b_iff in L. exfalso. apply (Qclt_not_le _ _ L). exact N. }
  split.
  - intros H. assert (H' : (a / safe n = 0)%Qc) by congruence. apply (ratio_equal _ _ _ S). rewrite H'. unfold Qcdiv. rewrite Qcmult_0_l. reflexivity.
  - intros ->. unfold Qcdiv. rewrite Qcmult_0_l. reflexivity.
Qed.

Lemma HH_repeats : forall asrt per var roi shape f, shapes per roi shape -> is_image shape f ->
  exists e, fresh asrt roi per var (CallHH f None) = Ok e /\
    forall r, pixel roi r -> (result_at e r = Root 0%Qc <-> repeats per shape (i_vals f) (offset roi r)).
Proof.
  intros asrt per var roi shape f HS Hf. destruct (HH_any asrt per var roi shape f None HS Hf I) as (e & E & _ & V).
  exists e. split; [exact E|]. intros r Hr. destruct (V r Hr) as (A & _ & _ & R). cbn [mask1 zeros i_vals] in A. rewrite seen_zeros in A.
  rewrite <- sums_repeat, <- A, R. apply root_zero. rewrite A. apply sum_nonneg. intros [p q] _; unfold sqdiff; apply Qc_sq_nonneg.
Qed.

Lemma S2_repeats : forall asrt var roi shape f, shapes true roi shape -> is_image shape f ->
  exists e, fresh asrt roi true var (CallS2 f f None) = Ok e /\
    forall r r0, pixel roi r -> pixel roi r0 -> zero_offset (offset roi r0) -> (result_at e r = result_at e r0 <-> repeats true shape (i_vals f) (offset roi r)).
Proof.
  intros asrt var roi shape f HS Hf. destruct (DerivedAlgebra.hh_from_S2 asrt var roi shape f HS Hf) as (e' & e & E' & E & K).
  destruct (HH_any asrt true var roi shape f None HS Hf I) as (e1 & E1 & _ & V1). assert (e1 = e') by congruence. subst e1.
  destruct (S2_periodic asrt var roi shape f f HS Hf Hf) as (e2 & E2 & _ & V2). assert (e2 = e) by congruence. subst e2.
  exists e. split; [exact E|]. intros r r0 Hr Hr0 Z0. destruct (K r r0 Hr Hr0 Z0) as [K1 _].
  destruct (V1 r Hr) as (A & _). cbn [mask1 zeros i_vals] in A. rewrite seen_zeros in A. rewrite <- sums_repeat, <- A, K1.
  destruct (V2 r Hr) as (_ & _ & R). destruct (V2 r0 Hr0) as (_ & NM & R0). rewrite R, R0.
  assert (PN : (0 < zq (zprod shape))%Qc).
  { rewrite <- zq_0. apply zq_lt. apply zprod_pos. eapply Forall_impl; [|exact (shape_pos _ _ _ HS)]. cbn beta. intros; lia. }
  split.
  - intros H. assert (H' : (first_at e r / zq (zprod shape) = first_at e r0 / zq (zprod shape))%Qc) by congruence. apply ratio_equal in H'; [|exact PN]. rewrite H'. ring.
  - intros H. do 2 f_equal. apply Qcmult_integral in H. destruct H as [H|H]; [discriminate H|].
    replace (first_at e r) with (first_at e r0 - (first_at e r0 - first_at e r))%Qc by ring. rewrite H. ring.
Qed.

Lemma sums_unmasked : forall shape f fm d, sum_over (filter (seen shape fm fm d) (pairs false shape d)) (sqdiff f) = 0%Qc <-> repeats_unmasked shape f fm d.
Proof.
  intros shape f fm d. rewrite sum_zero_iff by (intros [p q] _; unfold sqdiff; apply Qc_sq_nonneg). unfold repeats_unmasked. split.
  - intros H p q Hp Hq Mp Mq M. apply sqdiff_zero. apply H. apply filter_In. split.
    + apply pairs_In. split; [exact Hp|]. split; [exact Hq|]. apply movedb_iff. exact M.
    + unfold seen. cbn [fst snd]. rewrite Mp, Mq. reflexivity.
  - intros H [p q] IN. pose proof (seen_In _ _ _ _ _ _ _ IN) as (Hp & Hq & Mp & Mq). apply filter_In in IN. destruct IN as [IN _].
    apply pairs_In in IN. destruct IN as (_ & _ & M). apply movedb_iff in M. apply sqdiff_zero.
    apply H; auto; apply Z.eqb_eq; auto.
Qed.

Lemma HH_repeats_unmasked : forall asrt var roi shape f m, shapes false roi shape -> is_image shape f -> is_mask shape m ->
  exists e, fresh asrt roi false var (CallHH f (Some m)) = Ok e /\
    forall r, pixel roi r -> (result_at e r = Root 0%Qc <-> repeats_unmasked shape (i_vals f) (i_vals m) (offset roi r)).
Proof.
  intros asrt var roi shape f m HS Hf Hm. destruct (HH_any asrt false var roi shape f (Some m) HS Hf Hm) as (e & E & _ & V).
  exists e. split; [exact E|]. intros r Hr. destruct (V r Hr) as (A & _ & _ & R). cbn [mask1] in A.
  rewrite <- sums_unmasked, <- A, R. apply root_zero. rewrite A. apply sum_nonneg. intros [p q] _; unfold sqdiff; apply Qc_sq_nonneg.
Qed.
