(** * ClustersIntProofs: labels as [int]s (proofs only). *)

From Coq Require Import ZArith List Bool Lia.
From Verif Require Import Base BaseLemmas Cluster SpecCluster ClusterTop ClusterMore LabelsTyped ClustersInt.
Import ListNotations.
Open Scope Z_scope.

Lemma conv_id : forall v, - 2 ^ 31 <= v < 2 ^ 31 -> conv I32 v = v.
Proof.
  intros v H. unfold conv. cbn [tmin signed bits]. change (2 ^ (32 - 1)) with 2147483648. rewrite Z.mod_small; lia.
Qed.

(** Labels are [1..n]; there are [nclusters] of them. *)
Lemma labels_upto : forall asrt shape img per lab, good_shape shape -> (length shape <= 3)%nat -> lenZ img = zprod shape ->
  clusters asrt shape img per = Ok lab -> lenZ lab = zprod shape /\
  forall v, In v lab -> 0 <= v <= Z.of_nat (nclusters lab).
Proof.
  intros asrt shape img per lab G L HI E.
  destruct (clusters_ok asrt shape img per G L HI) as (lab' & E' & LL & _ & _ & (n & N) & P & _).
  rewrite E in E'. inversion E'; subst lab'. split; [exact LL|].
  intros v Hv. destruct (In_nth _ _ 0 Hv) as (k & Hk & Ek).
  assert (PX : pixel shape (Z.of_nat k)) by (unfold pixel, lenZ in *; lia).
  assert (VZ : zn lab (Z.of_nat k) = v) by (unfold zn; rewrite Nat2Z.id; exact Ek).
  pose proof (P _ PX) as P0. rewrite VZ in P0. split; [exact P0|].
  destruct (Z.eq_dec v 0) as [->|NZ]; [lia|].
  assert (VN : 1 <= v <= n) by (apply N; split; [exact NZ|]; eauto).
  assert (LE : (length (zrange 1 (n + 1)) <= nclusters lab)%nat).
  { unfold nclusters. apply NoDup_incl_length; [apply zrange_NoDup|]. intros w Hw. apply zrange_In in Hw.
    destruct (proj1 (N w) ltac:(lia)) as (W & p & Hp & Ep). apply filter_In. split.
    - apply nodup_In. rewrite <- Ep. unfold zn. apply nth_In. unfold pixel, lenZ in *. lia.
    - destruct (w =? 0) eqn:C; [lia|reflexivity]. }
  rewrite zrange_length in LE. lia.
Qed.

Lemma clusters_int_exact : forall asrt shape img per, good_shape shape -> (length shape <= 3)%nat -> lenZ img = zprod shape ->
  exists lab, clusters asrt shape img per = Ok lab /\
    (Z.of_nat (nclusters lab) < 2 ^ 31 -> clusters_int asrt shape img per = Ok lab) /\
    (zprod shape < 2 ^ 31 -> Z.of_nat (nclusters lab) < 2 ^ 31).
Proof.
  intros asrt shape img per G L HI. destruct (clusters_ok asrt shape img per G L HI) as (lab & E & _).
  exists lab. split; [exact E|]. destruct (labels_upto asrt shape img per lab G L HI E) as [LL U]. split.
  - intros H. unfold clusters_int. rewrite E. cbn [bind]. f_equal. rewrite <- (map_id lab) at 2. apply map_ext_in.
    intros v Hv. apply conv_id. specialize (U v Hv). lia.
  - intros H. assert (B : (nclusters lab <= length lab)%nat); [|unfold lenZ in LL; lia].
    unfold nclusters. assert (F : forall (f : Z -> bool) l, (length (filter f l) <= length l)%nat).
    { intros f. induction l as [|a l IH]; [cbn; lia|]. cbn [filter]. destruct (f a); cbn [length]; lia. }
    etransitivity; [apply F|]. apply NoDup_incl_length; [apply NoDup_nodup|]. intros v Hv. apply nodup_In in Hv. exact Hv.
Qed.

(** ** An image of every second pixel *)
Definition stripes (n : Z) : list Z := map (fun i => if Z.even i then 1 else 0) (zseq 0 (Z.to_nat n)).

Lemma stripes_nth : forall n i, 0 <= i < n -> zn (stripes n) i = if Z.even i then 1 else 0.
Proof.
  intros n i H. unfold zn, stripes. set (f := fun i => if Z.even i then 1 else 0).
  rewrite (nth_indep _ 0 (f 0)) by (rewrite map_length, zseq_length; lia).
  rewrite map_nth. unfold f. rewrite zseq_nth by lia. replace (0 + Z.of_nat (Z.to_nat i)) with i by lia. reflexivity.
Qed.

Lemma stripes_linked : forall n p q, linked (face_neighbour false [n]) (fun x => pixel [n] x /\ zn (stripes n) x <> 0) p q -> p = q.
Proof.
  intros n p q H. inversion H as [|? x ? [Pp Np] A T]; subst; [reflexivity|]. exfalso.
  assert (X : pixel [n] x /\ zn (stripes n) x <> 0) by (inversion T; subst; assumption).
  destruct X as [Px Nx]. unfold pixel in *. cbn [zprod] in *. rewrite Z.mul_1_r in *.
  rewrite stripes_nth in Np, Nx by lia. destruct A as (_ & _ & F). cbn [coords zprod face] in F. rewrite !Z.div_1_r in F.
  destruct F as [[_ []]|[[F|F] _]]; subst x.
  - rewrite Z.even_add in Nx. destruct (Z.even p); cbn in *; congruence.
  - rewrite Z.even_sub in Nx. destruct (Z.even p); cbn in *; congruence.
Qed.

Lemma clusters_int_refuted : exists shape img lab out p, good_shape shape /\ lenZ img = zprod shape /\
  clusters true shape img false = Ok lab /\ clusters_int true shape img false = Ok out /\
  pixel shape p /\ zn img p <> 0 /\ zn lab p = 2 ^ 31 /\ zn out p = - 2 ^ 31.
Proof.
  set (n := 2 ^ 32 + 1). assert (HN : n = 4294967297) by reflexivity. clearbody n.
  assert (G : good_shape [n]).
  { split; [discriminate|]. split; [repeat constructor; lia|]. unfold SpecCluster.big. cbn [zprod]. lia. }
  assert (LI : lenZ (stripes n) = zprod [n]).
  { unfold lenZ, stripes. rewrite map_length, zseq_length. cbn [zprod]. lia. }
  destruct (clusters_ok true [n] (stripes n) false G ltac:(cbn; lia) LI) as (lab & E & LL & Z0 & C & (m & M) & P & _).
  assert (EV : forall i, 0 <= i <= 2 ^ 31 -> pixel [n] (2 * i) /\ zn (stripes n) (2 * i) <> 0).
  { intros i Hi. split; [unfold pixel; cbn [zprod]; lia|]. rewrite stripes_nth by lia. rewrite Z.even_mul. cbn. discriminate. }
  assert (D : forall i k, 0 <= i <= 2 ^ 31 -> 0 <= k <= 2 ^ 31 -> zn lab (2 * i) = zn lab (2 * k) -> i = k).
  { intros i k Hi Hk H. destruct (EV i Hi) as [A1 A2]. destruct (EV k Hk) as [B1 B2].
    apply (C _ _ A1 B1 A2 B2) in H. apply stripes_linked in H. lia. }
  assert (HM : 2 ^ 31 + 1 <= m).
  { destruct (Z_lt_le_dec m (2 ^ 31 + 1)) as [L|L]; [exfalso|exact L].
    assert (I : (length (map (fun i => zn lab (2 * i)) (zrange 0 (2 ^ 31 + 1))) <= length (zrange 1 (m + 1)))%nat).
    { apply NoDup_incl_length.
      - pose proof (zrange_NoDup 0 (2 ^ 31 + 1)) as ND.
        assert (IN : forall i, In i (zrange 0 (2 ^ 31 + 1)) -> 0 <= i <= 2 ^ 31) by (intros i Hi; apply zrange_In in Hi; lia).
        revert ND IN. generalize (zrange 0 (2 ^ 31 + 1)) as l. induction l as [|a l IH]; intros ND IN; [constructor|].
        inversion ND as [|? ? NI ND']; subst. cbn [map]. constructor.
        + intros H. apply in_map_iff in H. destruct H as (b & Eb & Hb). apply NI.
          rewrite (D a b); [exact Hb|apply IN; left; reflexivity|apply IN; right; exact Hb|congruence].
        + apply IH; [exact ND'|]. intros i Hi. apply IN. right. exact Hi.
      - intros v Hv. apply in_map_iff in Hv. destruct Hv as (i & <- & Hi). apply zrange_In in Hi. apply zrange_In.
        destruct (EV i ltac:(lia)) as [A1 A2].
        assert (NZ : zn lab (2 * i) <> 0) by (intros X; apply (Z0 _ A1) in X; contradiction).
        pose proof (proj2 (M (zn lab (2 * i))) (conj NZ (ex_intro _ _ (conj A1 eq_refl)))). lia. }
    rewrite map_length, !zrange_length in I. lia. }
  destruct (proj1 (M (2 ^ 31)) ltac:(lia)) as (_ & p & Hp & Ep).
  exists [n], (stripes n), lab, (map (conv I32) lab), p.
  split; [exact G|]. split; [exact LI|]. split; [exact E|]. split; [unfold clusters_int; rewrite E; reflexivity|].
  split; [exact Hp|]. split; [intros X; apply (Z0 _ Hp) in X; rewrite Ep in X; discriminate|]. split; [exact Ep|].
  assert (ML : zn (map (conv I32) lab) p = conv I32 (zn lab p)).
  { unfold zn. rewrite (nth_indep _ 0 (conv I32 0)) by (rewrite map_length; unfold pixel, lenZ in *; lia). apply map_nth. }
  rewrite ML, Ep. reflexivity.
Qed.

(** Always: labels modulo 2^32. *)
Lemma clusters_int_mod : forall asrt shape img per, good_shape shape -> (length shape <= 3)%nat -> lenZ img = zprod shape ->
  exists lab out, clusters asrt shape img per = Ok lab /\ clusters_int asrt shape img per = Ok out /\ lenZ out = zprod shape /\
    forall p, pixel shape p -> - 2 ^ 31 <= zn out p < 2 ^ 31 /\ (zn out p - zn lab p) mod 2 ^ 32 = 0.
Proof.
  intros asrt shape img per G L HI. destruct (clusters_ok asrt shape img per G L HI) as (lab & E & LL & _).
  exists lab, (map (conv I32) lab). split; [exact E|]. split; [unfold clusters_int; rewrite E; reflexivity|].
  split; [unfold lenZ in *; rewrite map_length; exact LL|]. intros p Hp.
  assert (ML : zn (map (conv I32) lab) p = conv I32 (zn lab p)).
  { unfold zn. rewrite (nth_indep _ 0 (conv I32 0)) by (rewrite map_length; unfold pixel, lenZ in *; lia). apply map_nth. }
  rewrite ML. generalize (zn lab p) as v. intros v.
  assert (CV : conv I32 v = (v + 2147483648) mod 4294967296 - 2147483648).
  { unfold conv. change (tmin I32) with (-2147483648). change (2 ^ bits I32) with 4294967296.
    replace (v - -2147483648) with (v + 2147483648) by lia. lia. }
  rewrite CV. change (2 ^ 32) with 4294967296. change (2 ^ 31) with 2147483648.
  pose proof (Z.mod_pos_bound (v + 2147483648) 4294967296 ltac:(lia)). split; [lia|].
  pose proof (Z.div_mod (v + 2147483648) 4294967296 ltac:(lia)) as DM.
  replace ((v + 2147483648) mod 4294967296 - 2147483648 - v) with ((- ((v + 2147483648) / 4294967296)) * 4294967296) by lia.
  apply Z.mod_mul. lia.
Qed.
