(** * RepeatClusters: proofs of C158 *)

From Coq Require Import ZArith QArith Qcanon List Bool Lia.
From Verif Require Import Base BaseLemmas Array3 Array3Lemmas
  Ensemble SpecEnsemble EnsembleSums EnsembleTop SpecSymmetry SpecAlgebra DerivedAlgebra ClusterTop DerivedCluster SpecRepeat RepeatTop SpecCluster Cluster.
Import ListNotations.
Open Scope Z_scope.

Definition phase (f : list Z) : list Z := map (fun x => if x =? 0 then 0 else 1) f.

Lemma phase_zn : forall f p, zn (phase f) p = if zn f p =? 0 then 0 else 1.
Proof. intros f p. unfold phase, zn. exact (map_nth (fun x : Z => if x =? 0 then 0 else 1) f 0 (Z.to_nat p)). Qed.

Lemma phase_length : forall f, lenZ (phase f) = lenZ f.
Proof. intros f. unfold phase, lenZ. rewrite map_length. reflexivity. Qed.

Lemma repeat_clusters : forall asrt var roi shape f, shapes true roi shape -> good_shape shape -> is_image shape f ->
  exists lab e, clusters asrt shape (i_vals f) true = Ok lab /\
    fresh asrt roi true var (CallS2 (indicator f) (indicator f) None) = Ok e /\
    forall r r0, pixel roi r -> pixel roi r0 -> zero_offset (offset roi r0) -> result_at e r = result_at e r0 ->
      forall p q p' q', rolls (offset roi r) shape p p' -> rolls (offset roi r) shape q q' ->
        (zn lab p = 0 <-> zn lab p' = 0) /\ (zn lab p = zn lab q <-> zn lab p' = zn lab q').
Proof.
  intros asrt var roi shape f HS HG Hf.
  destruct (S2_repeats asrt var roi shape (indicator f) HS (each_image _ _ _ _ _ Hf)) as (e & E & K).
  assert (L : lenZ (i_vals f) = zprod shape) by apply Hf. assert (HR : (length shape <= 3)%nat) by apply HS.
  assert (LP : lenZ (phase (i_vals f)) = zprod shape) by (rewrite phase_length; exact L).
  assert (SAME : clusters asrt shape (i_vals f) true = clusters asrt shape (phase (i_vals f)) true).
  { apply same_partition_same_labels; auto. intros p Hp. rewrite phase_zn. destruct (Z.eqb_spec (zn (i_vals f) p) 0); lia. }
  destruct (clusters_ok asrt shape (phase (i_vals f)) true HG HR LP) as (lab & CL & _). rewrite CL in SAME.
  exists lab, e. split; [exact SAME|]. split; [exact E|]. intros r r0 Hr Hr0 Z0 EQ. apply (K r r0 Hr Hr0 Z0) in EQ.
  destruct (roll_clusters asrt shape (offset roi r) (phase (i_vals f)) (phase (i_vals f)) HG HR) as (l1 & l2 & E1 & E2 & W).
  - rewrite offset_length. apply HS.
  - exact LP.
  - exact LP.
  - intros p q (Hp & Hq & M). specialize (EQ p q Hp Hq M). rewrite !(indicator_qn shape) in EQ by auto.
    assert (V : zn (phase (i_vals f)) p = zn (phase (i_vals f)) q).
    { rewrite !phase_zn. destruct (zn (i_vals f) p =? 0), (zn (i_vals f) q =? 0); try reflexivity; discriminate EQ. }
    unfold zn in V. unfold lenZ in LP. unfold pixel in Hp, Hq. rewrite !(nth_error_nth' _ 0) by lia. congruence.
  - rewrite CL in E1, E2. injection E1 as <-. injection E2 as <-. exact W.
Qed.
