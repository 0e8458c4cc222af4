(** * UnitKernel: pixels a kernel apart lie in one cluster (proofs only) *)

From Coq Require Import ZArith QArith Qcanon List Bool Lia.
From Verif Require Import Base BaseLemmas ClusterGeom ClusterMain KernelProofs ClusterTop ClusterMore DerivedCluster Array3 Array3Lemmas
  Ensemble SpecEnsemble EnsembleSums EnsembleTop SpecSymmetry SpecAlgebra DerivedAlgebra SpecCluster Cluster.
Import ListNotations.
Open Scope Z_scope.

Lemma C2_is_S2_kernel : forall asrt per var roi shape ks kv ops m, shapes per roi shape -> good_shape shape ->
  good_kernel shape ks kv -> kernel_symmetric ks kv -> offsets_in_range per shape (set_offset ks kv) -> Forall (legal shape) ops -> masks_of shape m ->
  exists g s outs e e', make_kernel asrt shape per ks kv = Ok g /\ run asrt g ops = Ok (s, outs) /\
    fresh asrt roi per var (CallC2 (mkimg shape (c_label s)) (mkimg shape (c_label s)) m) = Ok e /\
    fresh asrt roi per var (CallS2 (indicator (mkimg shape (c_label s))) (indicator (mkimg shape (c_label s))) m) = Ok e' /\
    forall r, pixel roi r -> set_offset ks kv (offset roi r) ->
      first_at e r = first_at e' r /\ norm_at e r = norm_at e' r /\ result_at e r = result_at e' r.
Proof.
  intros asrt per var roi shape ks kv ops m HS HG HK SY HR HL HM.
  destruct (run_partition_kernel asrt shape per ks kv ops HG HK SY HR HL) as (g & s & outs & EM & ER & LS).
  destruct (make_kernel_ok asrt shape per ks kv HG HK) as (g' & EM' & Hwf & Es & _). rewrite EM in EM'. injection EM' as <-.
  destruct (run_support asrt g ops Hwf) as (s' & outs' & ER' & LL & LZ); [rewrite Es; auto|].
  rewrite ER in ER'. injection ER' as <- <-. rewrite Es in LL, LZ. set (lab := c_label s) in *.
  assert (Hl : is_image shape (mkimg shape lab)) by (split; [reflexivity|exact LL]).
  destruct (C2_any asrt per var roi shape _ _ m HS Hl Hl HM) as (e & E & _ & V).
  destruct (S2_any asrt per var roi shape (indicator (mkimg shape lab)) (indicator (mkimg shape lab)) m HS (each_image _ _ _ _ _ Hl) (each_image _ _ _ _ _ Hl) HM) as (e' & E' & _ & V').
  exists g, s, outs, e, e'. do 4 (split; [assumption|]). intros r Hr O. destruct (V r Hr) as (A1 & _ & A3 & A4). destruct (V' r Hr) as (B1 & _ & B3 & B4). cbv zeta in *.
  rewrite (mask2_shape _ _ (indicator (mkimg shape lab)) (mkimg shape lab) m eq_refl) in *.
  assert (F : first_at e r = first_at e' r).
  { rewrite A1, B1. apply sum_ext. intros [p q] H. pose proof (seen_In _ _ _ _ _ _ _ H) as (P & Q & _).
    apply filter_In in H. destruct H as [H _]. apply pairs_In in H. destruct H as (_ & _ & M). apply movedb_iff in M.
    cbn [fst snd]. rewrite (indicator_qn shape _ p), (indicator_qn shape _ q) by auto. unfold same_label. cbn [fst snd i_vals].
    destruct (Z.eqb_spec (zn lab p) 0) as [Z|N]; cbn [negb andb].
    - destruct (_ =? 0); reflexivity.
    - destruct (Z.eqb_spec (zn lab q) 0) as [Z|Nq]; [rewrite Z, (proj2 (Z.eqb_neq _ _) N); reflexivity|].
      assert (AP : added ops p) by (apply LZ; auto). assert (AQ : added ops q) by (apply LZ; auto).
      assert (EQ : zn lab p = zn lab q).
      { apply LS; auto. apply linked_step with q; [split; auto| |constructor; split; auto]. split; [exact P|]. split; [exact Q|]. exists (offset roi r). auto. }
      rewrite <- EQ, Z.eqb_refl. reflexivity. }
  assert (G : norm_at e r = norm_at e' r) by congruence. split; [exact F|]. split; [exact G|]. rewrite A4, B4, F, G. reflexivity.
Qed.
