(** * AxisClusters: a straight stretch lies in one cluster (proofs only) *)

From Coq Require Import ZArith QArith Qcanon List Bool Lia.
From Verif Require Import Base BaseLemmas ClusterAbs ClusterGeom ClusterMain ClusterTop Array3 Array3Lemmas Path SpecPath
  Ensemble SpecEnsemble EnsembleSums EnsembleTop SpecSymmetry SpecAlgebra DerivedAlgebra SpecLineal LinealTop SpecAxis AxisTop UnitTop UnitLineal DerivedCluster DerivedRun SpecCluster Cluster.
Import ListNotations.
Open Scope Z_scope.

Lemma moved_more : forall per shape a s u x y z, Forall (fun n => 0 < n) shape -> inside shape x -> moved per shape x (along (length shape) a s) y -> moved per shape x (along (length shape) a (s + u)) z ->
  moved per shape y (along (length shape) a u) z.
Proof.
  intros per. induction shape as [|n shape IH]; intros a s u [|x0 x] [|y0 y] [|z0 z] HP I M N; cbn [length] in *;
    try (destruct a; rewrite ?along_head, ?along_tail in *; cbn [moved] in *; contradiction); [exact Logic.I|].
  inversion HP as [|? ? P1 P2]; subst. destruct I as [I1 I2].
  destruct a as [|a]; rewrite ?along_head, ?along_tail in *; cbn [moved] in *; destruct M as [M1 M2]; destruct N as [N1 N2].
  - assert (x = y) by (apply (moved_zeros per shape); auto). assert (x = z) by (apply (moved_zeros per shape); auto). subst y z. split; [|exact M2].
    destruct per; subst y0 z0; [rewrite Zplus_mod_idemp_l; f_equal; lia|lia].
  - split; [|apply (IH a s u x y z); auto]. rewrite Z.add_0_r in *. destruct per; subst y0 z0; rewrite ?Zmod_mod; auto.
Qed.

Section Stretch.
Variables (per : bool) (shape f : list Z) (a : nat) (p : Z).
Hypothesis HN : Forall (fun n => 1 <= n) shape.
Hypothesis Ha : (a < length shape)%nat.
Hypothesis Hp : pixel shape p.

Let HP : Forall (fun n => 0 < n) shape.
Proof. eapply Forall_impl; try exact HN; intros; simpl in *; lia. Qed.

Lemma stretch_linked : forall u, u = 1 \/ u = -1 -> forall k : nat,
  (forall i, 0 <= i <= Z.of_nat k -> in_phase per shape f p (along (length shape) a (u * i)) = true) ->
  forall q, pixel shape q -> movedb per shape (coords shape p) (along (length shape) a (u * Z.of_nat k)) (coords shape q) = true ->
  linked (face_neighbour per shape) (fun x => pixel shape x /\ zn f x <> 0) p q.
Proof.
  intros u Hu. induction k as [|k IH]; intros HI q Hq M.
  - specialize (HI 0 ltac:(lia)). rewrite Z.mul_0_r in *. rewrite phase_here in HI by auto.
    assert (E : p = q). { apply (coords_inj shape); auto. apply movedb_zero in M; auto using along_length, coords_inside.
      intros z Hz. unfold along in Hz. apply in_map_iff in Hz. destruct Hz as (i & <- & _). destruct (Nat.eqb i a); reflexivity. }
    subst q. apply negb_true_iff, Z.eqb_neq in HI. constructor. auto.
  - destruct (proj1 (in_phase_iff _ _ _ _ _) (HI (Z.of_nat k) ltac:(lia))) as (x & Hx & Mx & Nx).
    destruct (proj1 (in_phase_iff _ _ _ _ _) (HI (Z.of_nat (S k)) ltac:(lia))) as (y & Hy & My & Ny).
    apply movedb_iff in My. pose proof M as M'. apply movedb_iff in M'. assert (E : y = q) by (apply (coords_inj shape); auto; eapply moved_functional; eauto). subst y.
    assert (L : linked (face_neighbour per shape) (fun x => pixel shape x /\ zn f x <> 0) p x).
    { apply IH; auto. intros i Hi. apply HI. lia. }
    assert (F : face_neighbour per shape x q).
    { split; [exact Hx|]. split; [exact Hq|]. apply movedb_iff in Mx. apply (unit_face per shape a u); auto using coords_inside.
      apply (moved_more per shape a (u * Z.of_nat k) u (coords shape p)); auto using coords_inside.
      replace (u * Z.of_nat k + u) with (u * Z.of_nat (S k)) by lia. exact M'. }
    apply linked_trans with x; [exact L|]. apply linked_step with q; auto. constructor. auto.
Qed.

Lemma straight_linked : forall t q, straight per shape f a t p = true -> pixel shape q ->
  movedb per shape (coords shape p) (along (length shape) a t) (coords shape q) = true ->
  linked (face_neighbour per shape) (fun x => pixel shape x /\ zn f x <> 0) p q.
Proof.
  intros t q HS Hq M. unfold straight in HS. rewrite forallb_forall in HS.
  set (u := if 0 <=? t then 1 else -1). assert (Hu : u = 1 \/ u = -1) by (unfold u; destruct (0 <=? t); auto).
  assert (E : u * Z.of_nat (Z.abs_nat t) = t) by (unfold u; destruct (Z.leb_spec 0 t); lia).
  apply (stretch_linked u Hu (Z.abs_nat t)); auto; [|rewrite E; exact M].
  intros i Hi. apply HS. apply zrange_In. unfold u in *. destruct (Z.leb_spec 0 t); lia.
Qed.

Lemma straight_end : forall t, straight per shape f a t p = true ->
  exists q, pixel shape q /\ movedb per shape (coords shape p) (along (length shape) a t) (coords shape q) = true.
Proof.
  intros t HS. unfold straight in HS. rewrite forallb_forall in HS. specialize (HS t). rewrite zrange_In in HS. specialize (HS ltac:(lia)).
  apply in_phase_iff in HS. destruct HS as (q & Hq & M & _). exists q. auto.
Qed.
End Stretch.

Lemma pairs_at_most : forall per shape d, Forall (fun n => 1 <= n) shape -> (sum_over (pairs per shape d) (fun _ => 1) <= zq (zprod shape))%Qc.
Proof.
  intros per shape d HN. assert (HP : Forall (fun n => 0 < n) shape) by (eapply Forall_impl; try exact HN; intros; simpl in *; lia).
  destruct (image_count shape HN) as [_ LN]. rewrite <- LN, <- sum_one. unfold pairs. rewrite sum_filter, sum_prod. apply sum_le. intros p IP. unfold pixels in IP. apply zrange_In in IP. cbn [fst snd].
  destruct (existsb (fun q => movedb per shape (coords shape p) d (coords shape q)) (pixels shape)) eqn:EX.
  - apply existsb_exists in EX. destruct EX as (q & IQ & M).
    rewrite (sum_single (pixels shape) (fun y => movedb per shape (coords shape p) d (coords shape y)) (fun _ => 1%Qc) q); [apply Qcle_refl|apply zrange_NoDup|exact IQ|].
    intros x IX. unfold pixels in *. apply zrange_In in IX. apply zrange_In in IQ. split; [|intros ->; exact M]. intros MX. apply (coords_inj shape); auto.
    apply movedb_iff in M, MX. eapply moved_functional; eauto.
  - rewrite (sum_ext _ _ _ (fun _ => 0%Qc)); [rewrite sum_zero; discriminate|]. intros q IQ. destruct (movedb per shape (coords shape p) d (coords shape q)) eqn:M; auto.
    assert (X : existsb (fun q => movedb per shape (coords shape p) d (coords shape q)) (pixels shape) = true) by (apply existsb_exists; exists q; auto). congruence.
Qed.

Lemma L_axis_below_C2 : forall asrt per var roi shape f mode, shapes per roi shape -> good_shape shape -> is_image shape f -> coverable mode roi -> (exists n, In n roi /\ 1 < n) ->
  exists lab e e', clusters asrt shape (i_vals f) per = Ok lab /\
    fresh asrt roi per var (CallL f mode) = Ok e /\
    fresh asrt roi per var (CallC2 (mkimg shape lab) (mkimg shape lab) None) = Ok e' /\
    forall r a t, pixel roi r -> (a < length roi)%nat -> offset roi r = along (length roi) a t ->
      exists l c, result_at e r = Exact l /\ result_at e' r = Exact c /\ (l <= c)%Qc.
Proof.
  intros asrt per var roi shape f mode HS HG Hf HC HB.
  assert (H3 : (length shape <= 3)%nat) by apply HS. assert (HN : Forall (fun n => 1 <= n) shape) by apply HS. assert (LL : length roi = length shape) by apply HS.
  assert (HP : Forall (fun n => 0 < n) shape) by (eapply Forall_impl; try exact HN; intros; simpl in *; lia).
  destruct (clusters_ok asrt shape (i_vals f) per HG H3 (proj2 Hf)) as (lab & EL & Len & LZ & LS & _).
  assert (Hl : is_image shape (mkimg shape lab)) by (split; [reflexivity|exact Len]).
  destruct (L_axis asrt per var roi shape f mode HS Hf HC HB) as (e & E & V).
  destruct (C2_any asrt per var roi shape _ _ None HS Hl Hl I) as (e' & E' & _ & V').
  exists lab, e, e'. do 3 (split; [assumption|]). intros r a t Hr Ha O. destruct (V' r Hr) as (B1 & _ & B3 & B4). cbv zeta in *.
  cbn [mask2 fst snd zeros i_vals i_shape] in B1, B3. rewrite seen_zeros in B1, B3.
  do 2 eexists. split; [exact (V r a t Hr Ha O)|]. split; [exact B4|]. unfold straight_fraction.
  assert (C : (zq (lenZ (filter (straight per shape (i_vals f) a t) (pixels shape))) <= first_at e' r)%Qc).
  { rewrite count_sum, B1, O, LL. unfold pairs. rewrite sum_filter, sum_prod. apply sum_le. intros p IP. unfold pixels in IP. apply zrange_In in IP. cbn [fst snd].
    destruct (straight per shape (i_vals f) a t p) eqn:ES.
    - destruct (straight_end per shape (i_vals f) a p ltac:(lia) t ES) as (q & Hq & M).
      assert (LK := straight_linked per shape (i_vals f) a p HN ltac:(lia) IP t q ES Hq M).
      assert (EN : zn (i_vals f) p <> 0 /\ zn (i_vals f) q <> 0).
      { split; [inversion LK; tauto|]. clear -LK. induction LK; tauto. }
      destruct EN as [Np Nq]. assert (EQ : zn lab p = zn lab q) by (apply LS; auto).
      rewrite (sum_single (pixels shape) (fun y => movedb per shape (coords shape p) (along (length shape) a t) (coords shape y)) _ q).
      + unfold same_label. cbn [fst snd]. rewrite <- EQ, Z.eqb_refl. assert (X : zn lab p <> 0) by (intros X; apply Np, LZ; auto). rewrite (proj2 (Z.eqb_neq _ _) X). apply Qcle_refl.
      + apply zrange_NoDup.
      + unfold pixels. apply zrange_In. exact Hq.
      + intros x IX. unfold pixels in IX. apply zrange_In in IX. split; [|intros ->; exact M]. intros MX. apply (coords_inj shape); auto.
        apply movedb_iff in M, MX. eapply moved_functional; eauto.
    - apply sum_nonneg. intros q _. destruct (movedb _ _ _ _ _); [destruct (same_label _ _ _)|]; discriminate. }
  assert (D : (first_at e' r <= norm_at e' r)%Qc).
  { rewrite B1, B3. apply sum_le. intros [x y] _. destruct (same_label _ _ _); discriminate. }
  assert (G : (norm_at e' r <= zq (zprod shape))%Qc) by (rewrite B3; apply pairs_at_most; exact HN).
  assert (Z : (0 <= zq (lenZ (filter (straight per shape (i_vals f) a t) (pixels shape))))%Qc) by (rewrite <- zq_0; apply zq_le; apply lenZ_nonneg).
  destruct (image_count shape HN) as [Z1 _]. assert (PN : (0 < zq (zprod shape))%Qc) by (rewrite <- zq_0; apply zq_lt; lia).
  revert C D G Z. generalize (zq (lenZ (filter (straight per shape (i_vals f) a t) (pixels shape)))), (first_at e' r), (norm_at e' r). intros s c n C D G Z.
  destruct (Qclt_b 0 n) eqn:EB.
  - unfold safe. rewrite EB. apply Qclt_b_iff in EB. pose proof (Qc_inv_pos _ EB) as IN. pose proof (Qc_inv_pos _ PN) as IP.
    apply Qcle_trans with (c / zq (zprod shape))%Qc.
    + unfold Qcdiv. apply Qcmult_le_compat_r; [exact C|]. apply Qclt_le_weak. exact IP.
    + assert (C0 : (0 <= c)%Qc) by (apply Qcle_trans with s; assumption).
      assert (IV : (/ zq (zprod shape) <= / n)%Qc).
      { replace (/ zq (zprod shape))%Qc with (n * (/ n * / zq (zprod shape)))%Qc by (field; split; apply not_eq_sym, Qclt_not_eq; assumption).
        replace (/ n)%Qc with (zq (zprod shape) * (/ n * / zq (zprod shape)))%Qc at 2 by (field; split; apply not_eq_sym, Qclt_not_eq; assumption).
        apply Qcmult_le_compat_r; [exact G|]. apply Qcle_trans with (0 * / zq (zprod shape))%Qc; [rewrite Qcmult_0_l; apply Qcle_refl|].
        apply Qcmult_le_compat_r; apply Qclt_le_weak; assumption. }
      unfold Qcdiv. rewrite (Qcmult_comm c), (Qcmult_comm c). apply Qcmult_le_compat_r; assumption.
  - assert (N0 : (n <= 0)%Qc). { apply Qcnot_lt_le. intros X. apply Qclt_b_iff in X. congruence. }
    assert (C0 : c = 0%Qc) by (apply Qcle_antisym; [apply Qcle_trans with n; assumption|apply Qcle_trans with s; assumption]).
    assert (S0 : s = 0%Qc) by (apply Qcle_antisym; [rewrite <- C0; exact C|exact Z]).
    rewrite C0, S0. unfold Qcdiv. rewrite !Qcmult_0_l. apply Qcle_refl.
Qed.
