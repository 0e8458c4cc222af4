(** * ClusterMore: islands of equal value, and [kernel::nearest] in three dimensions (proofs only). *)

From Coq Require Import ZArith List Bool Lia.
From Verif Require Import Base BaseLemmas Cluster Kernel ClusterInv ClusterGeom ClusterAbs ClusterRun ClusterMain
  ClusterTop KernelProofs SpecCluster.
Import ListNotations.
Open Scope Z_scope.

Lemma islands : forall asrt shape img per, good_shape shape -> (length shape <= 3)%nat ->
  lenZ img = zprod shape ->
  (forall p q, face_neighbour per shape p q -> zn img p <> 0 -> zn img q <> 0 -> zn img p = zn img q) ->
  exists lab, clusters asrt shape img per = Ok lab /\
    (forall p, pixel shape p -> (zn lab p = 0 <-> zn img p = 0)) /\
    forall p q, pixel shape p -> pixel shape q -> zn img p <> 0 ->
      (zn lab p = zn lab q <->
       linked (face_neighbour per shape) (fun x => pixel shape x /\ zn img x = zn img p) p q).
Proof.
  intros asrt shape img per HS HR HL HE.
  destruct (clusters_ok asrt shape img per HS HR HL) as (lab & E & _ & Z1 & C1 & _).
  exists lab. split; auto. split; auto. intros p q Hp Hq Np.
  assert (P : forall a b, linked (face_neighbour per shape) (fun x => pixel shape x /\ zn img x <> 0) a b ->
     linked (face_neighbour per shape) (fun x => pixel shape x /\ zn img x = zn img a) a b).
  { intros a b H. induction H as [a Ha|a b c Ha Hab Hbc IH].
    - apply linked_refl. tauto.
    - apply linked_step with b; [tauto|exact Hab|].
      assert (B : pixel shape b /\ zn img b <> 0) by (inversion Hbc; auto).
      rewrite (HE a b Hab (proj2 Ha) (proj2 B)). exact IH. }
  split.
  - intros Eq. apply P. apply C1; auto. intros X. apply Z1 in X; auto. apply Np. apply Z1; auto. congruence.
  - intros H. assert (Q : zn img q = zn img p).
    { clear -H. revert H. generalize (zn img p) at 1 2. intros v H. induction H; tauto. }
    apply C1; auto; [congruence|].
    revert H. apply linked_mono; auto. intros x [X1 X2]. split; auto. congruence.
Qed.

(** ** [kernel::nearest(3)] *)

Definition near3 : list Z := map (fun c => if existsb (Z.eqb 1) (firstn 3 c) then 1 else 0)
  (map (unravel [3; 3; 3]) (zseq 0 27)).

Lemma nearest_3 : forall asrt, nearest asrt 3 = Ok ([3; 3; 3], near3).
Proof. intros [|]; reflexivity. Qed.

Lemma zn_map_seq : forall (f : Z -> Z) n p, 0 <= p < Z.of_nat n -> zn (map f (zseq 0 n)) p = f p.
Proof.
  intros f n p Hp. unfold zn. rewrite (nth_indep _ 0 (f 0)) by (rewrite map_length, zseq_length; lia).
  rewrite map_nth. f_equal. pose proof (zn_zseq n 0 p) as X. unfold zn in X. rewrite X; lia.
Qed.

Lemma near3_spec : forall p, pixel [3; 3; 3] p ->
  (zn near3 p = 1 /\ In 1 (coords [3; 3; 3] p)) \/ (zn near3 p = 0 /\ ~ In 1 (coords [3; 3; 3] p)).
Proof.
  intros p Hp. unfold near3. rewrite map_map. rewrite zn_map_seq by (unfold pixel in Hp; cbn in Hp; lia).
  rewrite unravel_coords.
  replace (firstn 3 (coords [3; 3; 3] p)) with (coords [3; 3; 3] p) by reflexivity.
  destruct (existsb (Z.eqb 1) (coords [3; 3; 3] p)) eqn:E.
  - left. split; auto. apply existsb_exists in E. destruct E as (x & Hx & E). apply Z.eqb_eq in E. subst. exact Hx.
  - right. split; auto. intros H. assert (existsb (Z.eqb 1) (coords [3; 3; 3] p) = true); [|congruence].
    apply existsb_exists. exists 1. auto.
Qed.

Lemma good_near3 : forall shape, length shape = 3%nat -> good_kernel shape [3; 3; 3] near3.
Proof.
  intros shape HL. split; [auto|]. split; [repeat constructor; unfold big; lia|]. split; [reflexivity|].
  intros p Hp Hc. destruct (near3_spec p Hp) as [[A _]|[_ B]]; [exact A|].
  rewrite Hc in B. exfalso. apply B. left. reflexivity.
Qed.

Lemma near3_offset : forall d, set_offset [3; 3; 3] near3 d <->
  length d = 3%nat /\ Forall (fun t => -1 <= t <= 1) d /\ In 0 d.
Proof.
  intros d. change (centre [3; 3; 3]) with [1; 1; 1]. unfold set_offset. change (centre [3; 3; 3]) with [1; 1; 1].
  assert (HP : Forall (fun n => 0 < n) [3; 3; 3]) by (repeat constructor).
  split.
  - intros (p & Hp & Hn & HM). pose proof (coords_inside _ p HP Hp) as I.
    destruct (near3_spec p Hp) as [[_ B]|[A _]]; [|exfalso; apply Hn; exact A].
    revert HM I B. generalize (coords [3; 3; 3] p). intros c HM I B.
    destruct c as [|c0 [|c1 [|c2 [|? ?]]]]; simpl in I; try tauto.
    destruct d as [|d0 [|d1 [|d2 [|? ?]]]]; cbn [moved] in HM; try tauto.
    destruct HM as (E0 & E1 & E2 & _).
    split; [reflexivity|]. split; [repeat constructor; lia|].
    cbn [In] in B |- *. lia.
  - intros (HL & HF & H0). destruct d as [|d0 [|d1 [|d2 [|? ?]]]]; try discriminate.
    rewrite Forall_forall in HF.
    pose proof (HF d0 ltac:(simpl; auto)). pose proof (HF d1 ltac:(simpl; auto)). pose proof (HF d2 ltac:(simpl; auto)).
    assert (I : inside [3; 3; 3] [1 + d0; 1 + d1; 1 + d2]) by (cbn [inside]; lia).
    pose proof (ravel_range _ _ I) as R. exists (ravel [3; 3; 3] [1 + d0; 1 + d1; 1 + d2]).
    split; [exact R|]. split.
    + destruct (near3_spec _ R) as [[A _]|[_ B]].
      * intros X. change (nth _ near3 0) with (zn near3 (ravel [3; 3; 3] [1 + d0; 1 + d1; 1 + d2])) in X. congruence.
      * exfalso. apply B. rewrite coords_ravel by auto. cbn [In] in H0 |- *. lia.
    + rewrite coords_ravel by auto. cbn [moved]. tauto.
Qed.

Lemma nearest_3_edges : forall asrt, exists kv, nearest asrt 3 = Ok ([3; 3; 3], kv) /\ lenZ kv = 27 /\
  forall p c, pixel [3; 3; 3] p -> pixel [3; 3; 3] c -> coords [3; 3; 3] c = [1; 1; 1] ->
    (zn kv p = 0 \/ zn kv p = 1) /\ (zn kv p <> 0 <-> face_or_edge false [3; 3; 3] c p).
Proof.
  intros asrt. exists near3. split; [apply nearest_3|]. split; [reflexivity|].
  intros p c Hp Hc Ec. pose proof (near3_spec p Hp) as S. split; [tauto|].
  assert (HP : Forall (fun n => 0 < n) [3; 3; 3]) by (repeat constructor).
  pose proof (coords_inside _ p HP Hp) as I. unfold face_or_edge. rewrite Ec. split.
  - intros Hn. destruct S as [[_ S]|[S _]]; [|congruence]. split; auto. split; auto.
    revert I S. generalize (coords [3; 3; 3] p). intros a I S.
    destruct a as [|a0 [|a1 [|a2 [|? ?]]]]; simpl in I; try tauto.
    exists (a0 - 1), (a1 - 1), (a2 - 1). cbn [In] in S. cbn [moved]. lia.
  - intros (_ & _ & d0 & d1 & d2 & H0 & H1 & H2 & H3 & HM). destruct S as [[S _]|[_ S]]; [lia|]. exfalso. apply S.
    revert I HM. generalize (coords [3; 3; 3] p). intros a I HM.
    destruct a as [|a0 [|a1 [|a2 [|? ?]]]]; simpl in I; try tauto.
    cbn [moved] in HM. cbn [In]. lia.
Qed.

Lemma nearest_3_partition : forall asrt shape per ops, length shape = 3%nat -> good_shape shape ->
  Forall (legal shape) ops ->
  exists ks kv g s outs, nearest asrt 3 = Ok (ks, kv) /\ make_kernel asrt shape per ks kv = Ok g /\
    run asrt g ops = Ok (s, outs) /\
    forall p q, pixel shape p -> pixel shape q -> added ops p -> added ops q ->
     (zn (c_label s) p = zn (c_label s) q <->
      linked (face_or_edge per shape) (fun x => pixel shape x /\ added ops x) p q).
Proof.
  intros asrt shape per ops HL HS Hl.
  assert (HR : offsets_in_range per shape (set_offset [3; 3; 3] near3)).
  { destruct shape as [|n0 [|n1 [|n2 t]]]; try discriminate. exact I. }
  assert (HY : kernel_symmetric [3; 3; 3] near3).
  { intros d Hd. apply near3_offset in Hd. apply near3_offset. destruct Hd as (A & B & C).
    split; [rewrite map_length; auto|]. split.
    - apply Forall_forall. intros x Hx. apply in_map_iff in Hx. destruct Hx as (y & <- & Hy).
      rewrite Forall_forall in B. specialize (B y Hy). lia.
    - change 0 with (- 0). apply in_map. exact C. }
  destruct (run_partition_kernel asrt shape per _ _ ops HS (good_near3 shape HL) HY HR Hl) as (g & s & outs & E1 & E2 & H).
  exists [3; 3; 3], near3, g, s, outs. split; [apply nearest_3|]. split; auto. split; auto.
  intros p q Hp Hq Ap Aq. rewrite (H p q Hp Hq Ap Aq).
  assert (N : forall x y, kernel_neighbour per shape [3; 3; 3] near3 x y <-> face_or_edge per shape x y).
  { intros x y. unfold kernel_neighbour, face_or_edge. split.
    - intros (Hx & Hy & d & Hd & HM). split; [auto|]. split; [auto|]. apply near3_offset in Hd.
      destruct Hd as (L & F & Z0). destruct d as [|d0 [|d1 [|d2 [|? ?]]]]; try discriminate.
      rewrite Forall_forall in F. exists d0, d1, d2.
      split; [apply F; simpl; auto|]. split; [apply F; simpl; auto|]. split; [apply F; simpl; auto|].
      split; [cbn [In] in Z0; lia|exact HM].
    - intros (Hx & Hy & d0 & d1 & d2 & H0 & H1 & H2 & H3 & HM). split; [auto|]. split; [auto|].
      exists [d0; d1; d2]. split; [|exact HM]. apply near3_offset. split; [reflexivity|].
      split; [repeat constructor; lia|]. cbn [In]. lia. }
  split; apply linked_mono; auto; intros x y _ _; apply N.
Qed.
