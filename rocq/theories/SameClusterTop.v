(** * SameClusterTop: proofs of C157 *)

From Coq Require Import ZArith QArith Qcanon List Bool Lia.
From Verif Require PositiveDefinite.
From Verif Require Import Base BaseLemmas Array3 Array3Lemmas
  Ensemble SpecEnsemble EnsembleSums EnsembleTop SpecSymmetry SpecAlgebra DerivedAlgebra DerivedRelations Links OneCluster RepeatTop SpecSameCluster SpecCluster.
Import ListNotations.
Open Scope Z_scope.

Definition one_if (b : bool) : Qc := if b then 1%Qc else 0%Qc.

Lemma one_if_le : forall a b, (a = true -> b = true) -> (one_if a <= one_if b)%Qc.
Proof. intros [|] [|] H; cbn [one_if]; try apply Qcle_refl; try (specialize (H eq_refl); discriminate). discriminate. Qed.

Lemma one_if_eq : forall a b, one_if a = one_if b <-> a = b.
Proof. intros [|] [|]; cbn [one_if]; split; intros H; try reflexivity; discriminate. Qed.

Lemma C2_same : forall asrt var roi shape f g, shapes true roi shape -> is_image shape f -> is_image shape g ->
  exists e ef, fresh asrt roi true var (CallC2 f g None) = Ok e /\ fresh asrt roi true var (CallC2 f f None) = Ok ef /\
    forall r r0, pixel roi r -> pixel roi r0 -> zero_offset (offset roi r0) ->
      exists q qf, result_at e r = Exact q /\ result_at ef r0 = Exact qf /\ (q <= qf)%Qc /\
        (q = qf <-> keeps_labels shape (i_vals f) (i_vals g) (offset roi r)).
Proof.
  intros asrt var roi shape f g HS Hf Hg.
  destruct (C2_any asrt true var roi shape f g None HS Hf Hg I) as (e & E & _ & V).
  destruct (C2_any asrt true var roi shape f f None HS Hf Hf I) as (ef & Ef & _ & Vf).
  exists e, ef. split; [exact E|]. split; [exact Ef|]. intros r r0 Hr Hr0 Z0.
  destruct (V r Hr) as (A & _ & N & R). destruct (Vf r0 Hr0) as (Af & _ & Nf & Rf).
  cbn [mask2 fst snd zeros i_vals] in *. rewrite seen_zeros in *.
  rewrite sum_one, (pairs_periodic_count roi) in N, Nf by auto.
  rewrite R, Rf, N, Nf.
  pose proof (safe_gt (zq (zprod shape))) as PN. set (n := safe (zq (zprod shape))) in *.
  exists (first_at e r / n)%Qc, (first_at ef r0 / n)%Qc. split; [reflexivity|]. split; [reflexivity|].
  rewrite (sum_pairs_zero true shape (offset roi r0)) in Af; auto; [|apply HS|rewrite offset_length; apply HS].
  rewrite <- (sum_pairs_fst roi shape r (fun p => if same_label (i_vals f) (i_vals f) (p, p) then 1%Qc else 0%Qc) HS Hr) in Af.
  set (l := pairs true shape (offset roi r)) in *.
  assert (T : forall x, In x l -> (one_if (same_label (i_vals f) (i_vals g) x) <= one_if (same_label (i_vals f) (i_vals f) (fst x, fst x)))%Qc).
  { intros [p q] _. apply one_if_le. unfold same_label. cbn [fst snd]. intros H. apply andb_true_iff in H. destruct H as [H1 H2].
    apply andb_true_iff. lia. }
  split.
  - apply Qcle_minus_iff. replace (first_at ef r0 / n + - (first_at e r / n))%Qc with ((first_at ef r0 - first_at e r) / n)%Qc by (unfold Qcdiv; ring).
    apply PositiveDefinite.div_nonneg; [exact PN|]. assert (LE : (first_at e r <= first_at ef r0)%Qc) by (rewrite A, Af; apply sum_le; exact T).
    apply Qcle_minus_iff in LE. exact LE.
  - transitivity (first_at e r = first_at ef r0). { split; [apply ratio_equal; exact PN|intros ->; reflexivity]. }
    rewrite A, Af. split.
    + intros H p q Hp Hq M L. assert (IN : In (p, q) l). { apply pairs_In. split; [exact Hp|]. split; [exact Hq|]. apply movedb_iff. exact M. }
      pose proof (sum_equal _ l _ _ T H (p, q) IN) as S. apply one_if_eq in S. unfold same_label in S. cbn [fst snd] in S. lia.
    + intros K. apply sum_ext. intros [p q] IN. apply pairs_In in IN. destruct IN as (Hp & Hq & M). apply movedb_iff in M.
      apply one_if_eq. specialize (K p q Hp Hq M). unfold same_label. cbn [fst snd]. lia.
Qed.

Lemma keeps_checked : forall shape f g d,
  forallb (fun pq => (zn f (fst pq) =? 0) || (zn g (snd pq) =? zn f (fst pq))) (pairs true shape d) = true <-> keeps_labels shape f g d.
Proof.
  intros shape f g d. rewrite forallb_forall. split.
  - intros H p q Hp Hq M L. assert (IN : In (p, q) (pairs true shape d)). { apply pairs_In. split; [exact Hp|]. split; [exact Hq|]. apply movedb_iff. exact M. }
    specialize (H _ IN). cbn [fst snd] in H. lia.
  - intros K [p q] IN. apply pairs_In in IN. destruct IN as (Hp & Hq & M). apply movedb_iff in M. specialize (K p q Hp Hq M). cbn [fst snd]. lia.
Qed.
