(** * UnitTop: neighbouring pixels of the phase lie in one cluster (proofs only) *)

From Coq Require Import ZArith QArith Qcanon List Bool Lia.
From Verif Require Import Base BaseLemmas ClusterGeom ClusterMain ClusterTop Array3 Array3Lemmas
  Ensemble SpecEnsemble EnsembleSums EnsembleTop SpecSymmetry SpecAlgebra DerivedAlgebra SpecAxis SpecCluster Cluster.
Import ListNotations.
Open Scope Z_scope.

Lemma along_head : forall n t, along (S n) 0 t = t :: repeat 0 n.
Proof.
  intros n t. unfold along. cbn [seq map Nat.eqb]. f_equal. rewrite <- seq_shift, map_map. cbn [Nat.eqb].
  generalize 0%nat at 1. induction n as [|n IH]; intros k; [reflexivity|]. cbn. f_equal. apply IH.
Qed.

Lemma along_tail : forall n a t, along (S n) (S a) t = 0 :: along n a t.
Proof. intros n a t. unfold along. cbn [seq map Nat.eqb]. f_equal. rewrite <- seq_shift, map_map. reflexivity. Qed.

Lemma moved_zeros : forall per shape x y, inside shape x -> moved per shape x (repeat 0 (length shape)) y -> x = y.
Proof.
  intros per. induction shape as [|n shape IH]; intros [|u x] [|v y] I M; cbn [length repeat moved inside] in *; try contradiction; auto.
  destruct I as [I1 I2]. destruct M as [M1 M2]. f_equal; [|apply IH; auto].
  rewrite Z.add_0_r in M1. destruct per; [rewrite Z.mod_small in M1 by lia|]; auto.
Qed.

Lemma unit_face : forall per shape a t x y, (a < length shape)%nat -> t = 1 \/ t = -1 -> inside shape x ->
  moved per shape x (along (length shape) a t) y -> face per shape x y.
Proof.
  intros per. induction shape as [|n shape IH]; intros a t x y Ha Ht I M; cbn [length] in *; [lia|].
  destruct a as [|a]; [rewrite along_head in M|rewrite along_tail in M]; destruct x as [|u x], y as [|v y]; cbn [moved] in M; try contradiction;
    destruct M as [M1 M2]; destruct I as [I1 I2]; cbn [face].
  - right. split; [|apply (moved_zeros per shape); auto]. destruct Ht as [-> | ->]; destruct per; [left|left|right|right]; auto.
  - left. split; [|apply (IH a t); auto; lia]. rewrite Z.add_0_r in M1. destruct per; [rewrite Z.mod_small in M1 by lia|]; auto.
Qed.

Lemma C2_is_S2_near : forall asrt per var roi shape f m, shapes per roi shape -> good_shape shape -> is_image shape f -> masks_of shape m ->
  exists lab e e', clusters asrt shape (i_vals f) per = Ok lab /\
    fresh asrt roi per var (CallC2 (mkimg shape lab) (mkimg shape lab) m) = Ok e /\
    fresh asrt roi per var (CallS2 (indicator f) (indicator f) m) = Ok e' /\
    forall r a t, pixel roi r -> (a < length shape)%nat -> -1 <= t <= 1 -> offset roi r = along (length shape) a t ->
      first_at e r = first_at e' r /\ norm_at e r = norm_at e' r /\ result_at e r = result_at e' r.
Proof.
  intros asrt per var roi shape f m HS HG Hf HM.
  assert (H3 : (length shape <= 3)%nat) by apply HS. assert (HN : Forall (fun n => 1 <= n) shape) by apply HS.
  destruct (clusters_ok asrt shape (i_vals f) per HG H3 (proj2 Hf)) as (lab & EL & LL & LZ & LS & _).
  assert (Hl : is_image shape (mkimg shape lab)) by (split; [reflexivity|exact LL]).
  destruct (C2_any asrt per var roi shape _ _ m HS Hl Hl HM) as (e & E & S & V).
  destruct (S2_any asrt per var roi shape (indicator f) (indicator f) m HS (each_image _ _ _ _ _ Hf) (each_image _ _ _ _ _ Hf) HM) as (e' & E' & S' & V').
  exists lab, e, e'. do 3 (split; [assumption|]). intros r a t Hr Ha Ht O. destruct (V r Hr) as (A1 & _ & A3 & A4). destruct (V' r Hr) as (B1 & _ & B3 & B4). cbv zeta in *.
  assert (EM : mask2 (mkimg shape lab) m = mask2 (indicator f) m) by (apply mask2_shape; symmetry; apply Hf).
  rewrite EM in A1, A3. rewrite O in *.
  assert (F : first_at e r = first_at e' r).
  { rewrite A1, B1. apply sum_ext. intros [p q] H. pose proof (seen_In _ _ _ _ _ _ _ H) as (P & Q & _).
    apply filter_In in H. destruct H as [H _]. apply pairs_In in H. destruct H as (_ & _ & M). apply movedb_iff in M.
    cbn [fst snd]. rewrite (indicator_qn shape f p), (indicator_qn shape f q) by auto. unfold same_label. cbn [fst snd i_vals].
    assert (IP : inside shape (coords shape p)) by (apply coords_inside; auto; eapply Forall_impl; try exact HN; intros; simpl in *; lia).
    destruct (Z.eqb_spec (zn (i_vals f) p) 0) as [Z|N].
    - rewrite (proj2 (LZ p P) Z). cbn. destruct (_ =? 0); reflexivity.
    - assert (N' : zn lab p <> 0) by (intros X; apply N, LZ; auto). rewrite (proj2 (Z.eqb_neq _ _) N'). cbn [negb andb].
      destruct (Z.eqb_spec (zn (i_vals f) q) 0) as [Z|Nq].
      + rewrite (proj2 (LZ q Q) Z), (proj2 (Z.eqb_neq _ _) N'). reflexivity.
      + assert (EQ : zn lab p = zn lab q).
        { destruct (Z.eq_dec t 0) as [->|T].
          - assert (X : p = q); [|subst; reflexivity].
            assert (IQ : inside shape (coords shape q)) by (apply coords_inside; auto; eapply Forall_impl; try exact HN; intros; simpl in *; lia).
            assert (C : coords shape p = coords shape q).
            { apply (movedb_zero per shape (along (length shape) a 0)); auto.
              - intros z Hz. unfold along in Hz. apply in_map_iff in Hz. destruct Hz as (i & <- & _). destruct (Nat.eqb i a); reflexivity.
              - unfold along. rewrite map_length, seq_length. reflexivity.
              - apply movedb_iff. exact M. }
            apply (coords_inj shape); auto. eapply Forall_impl; try exact HN; intros; simpl in *; lia.
          - apply LS; auto. apply linked_step with q; [split; auto| |constructor; split; auto].
            split; [exact P|]. split; [exact Q|]. apply (unit_face per shape a t); auto. lia. }
        rewrite <- EQ, Z.eqb_refl. reflexivity. }
  assert (G : norm_at e r = norm_at e' r) by congruence. split; [exact F|]. split; [exact G|]. rewrite A4, B4, F, G. reflexivity.
Qed.
