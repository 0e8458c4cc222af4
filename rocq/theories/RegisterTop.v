(** * RegisterTop: proofs of C156 *)

From Coq Require Import ZArith QArith Qcanon List Bool Lia.
From Verif Require PositiveDefinite.
From Verif Require Import Base BaseLemmas Array3 Array3Lemmas
  Ensemble SpecEnsemble EnsembleSums EnsembleTop SpecSymmetry SpecAlgebra DerivedAlgebra DerivedRelations RepeatTop SpecRegister SpecCluster.
Import ListNotations.
Open Scope Z_scope.

Definition gap (f g : list Qc) (pq : Z * Z) : Qc := ((qn f (fst pq) - qn g (snd pq)) * (qn f (fst pq) - qn g (snd pq)))%Qc.

Lemma gap_zero : forall f g p q, gap f g (p, q) = 0%Qc <-> qn f p = qn g q.
Proof.
  intros f g p q. unfold gap. cbn [fst snd]. split.
  - intros E. apply Qcmult_integral in E. assert (D : (qn f p - qn g q = 0)%Qc) by tauto.
    replace (qn f p) with ((qn f p - qn g q) + qn g q)%Qc by ring. rewrite D. ring.
  - intros ->. ring.
Qed.

Lemma gaps_carried : forall shape f g d, sum_over (pairs true shape d) (gap f g) = 0%Qc <-> carried_to shape f g d.
Proof.
  intros shape f g d. rewrite sum_zero_iff by (intros [p q] _; unfold gap; apply Qc_sq_nonneg). unfold carried_to. split.
  - intros H p q Hp Hq M. apply gap_zero. apply H. apply pairs_In. split; [exact Hp|]. split; [exact Hq|]. apply movedb_iff. exact M.
  - intros H [p q] IN. apply pairs_In in IN. destruct IN as (Hp & Hq & M). apply movedb_iff in M. apply gap_zero. auto.
Qed.

Lemma S2_register : forall asrt var roi shape f g, shapes true roi shape -> is_image shape f -> is_image shape g ->
  exists e ef eg, fresh asrt roi true var (CallS2 f g None) = Ok e /\
    fresh asrt roi true var (CallS2 f f None) = Ok ef /\ fresh asrt roi true var (CallS2 g g None) = Ok eg /\
    forall r r0, pixel roi r -> pixel roi r0 -> zero_offset (offset roi r0) ->
      exists q qf qg, result_at e r = Exact q /\ result_at ef r0 = Exact qf /\ result_at eg r0 = Exact qg /\
        (q + q <= qf + qg)%Qc /\ ((q + q = qf + qg)%Qc <-> carried_to shape (i_vals f) (i_vals g) (offset roi r)).
Proof.
  intros asrt var roi shape f g HS Hf Hg.
  destruct (S2_periodic asrt var roi shape f g HS Hf Hg) as (e & E & _ & V).
  destruct (S2_periodic asrt var roi shape f f HS Hf Hf) as (ef & Ef & _ & Vf).
  destruct (S2_periodic asrt var roi shape g g HS Hg Hg) as (eg & Eg & _ & Vg).
  exists e, ef, eg. split; [exact E|]. split; [exact Ef|]. split; [exact Eg|]. intros r r0 Hr Hr0 Z0.
  destruct (V r Hr) as (A & _ & R). destruct (Vf r0 Hr0) as (Af & _ & Rf). destruct (Vg r0 Hr0) as (Ag & _ & Rg).
  exists (first_at e r / zq (zprod shape))%Qc, (first_at ef r0 / zq (zprod shape))%Qc, (first_at eg r0 / zq (zprod shape))%Qc.
  split; [exact R|]. split; [exact Rf|]. split; [exact Rg|].
  assert (PN : (0 < zq (zprod shape))%Qc).
  { rewrite <- zq_0. apply zq_lt. apply zprod_pos. eapply Forall_impl; [|exact (shape_pos _ _ _ HS)]. cbn beta. intros; lia. }
  assert (NZ : zq (zprod shape) <> 0%Qc) by (apply not_eq_sym, Qclt_not_eq; exact PN).
  assert (G : (sum_over (pairs true shape (offset roi r)) (gap (i_vals f) (i_vals g)) = first_at ef r0 + first_at eg r0 - (first_at e r + first_at e r))%Qc).
  { rewrite A, Af, Ag. rewrite !(sum_pairs_zero true shape (offset roi r0)); auto; try apply HS; try (rewrite offset_length; apply HS). cbn [fst snd].
    rewrite (sum_ext _ (pairs true shape (offset roi r)) (gap (i_vals f) (i_vals g))
      (fun pq => qn (i_vals f) (fst pq) * qn (i_vals f) (fst pq) + (qn (i_vals g) (snd pq) * qn (i_vals g) (snd pq)
               + (- (1 + 1)) * (qn (i_vals f) (fst pq) * qn (i_vals g) (snd pq))))%Qc) by (intros [p q] _; unfold gap; cbn [fst snd]; ring).
    rewrite !sum_plus, sum_scale.
    rewrite (sum_pairs_fst roi shape r (fun p => qn (i_vals f) p * qn (i_vals f) p)%Qc HS Hr).
    rewrite (sum_pairs_snd roi shape r (fun p => qn (i_vals g) p * qn (i_vals g) p)%Qc HS Hr). ring. }
  set (N := zq (zprod shape)) in *. set (a := first_at e r) in *. set (b := first_at ef r0) in *. set (c := first_at eg r0) in *.
  assert (D : (b / N + c / N - (a / N + a / N) = (b + c - (a + a)) / N)%Qc) by (field; exact NZ).
  split.
  - apply Qcle_minus_iff. replace (b / N + c / N + - (a / N + a / N))%Qc with ((b + c - (a + a)) / N)%Qc by (rewrite <- D; ring).
    apply PositiveDefinite.div_nonneg; [exact PN|]. rewrite <- G. apply sum_nonneg. intros [p q] _. unfold gap. apply Qc_sq_nonneg.
  - rewrite <- gaps_carried, G. split.
    + intros H. apply (ratio_equal _ _ N PN). rewrite <- D, H. unfold Qcdiv. ring.
    + intros H. rewrite H in D. symmetry. replace (b / N + c / N)%Qc with ((b / N + c / N - (a / N + a / N)) + (a / N + a / N))%Qc by ring.
      rewrite D. unfold Qcdiv. ring.
Qed.
