(** * AxesEnsemble: statistics of images with their axes in another order (proofs only) *)

From Coq Require Import ZArith QArith Qcanon List Bool Lia Permutation.
From Verif Require Import Base BaseLemmas Cluster SpecCluster ClusterGeom ClusterMain SpecDilate SpecPath Path Array3 Array3Lemmas DilateTop Ensemble SpecEnsemble EnsembleSums EnsembleWindow EnsembleAdd EnsembleTop
  EnsembleL EnsembleW2c SpecAlgebra DerivedAlgebra SpecSymmetry DerivedCluster DerivedDilate DerivedEnsemble DerivedLineal SpecMoved SpecPathSym PathSym W2cLaws SpecLinealMoved LinealMoved LinealMovedTop
  SpecAxes AxesLaws.
Import ListNotations.
Open Scope Z_scope.

Lemma shapes_arr : forall o per roi shape, axes o (length shape) -> shapes per roi shape -> shapes per (arr o roi) (arr o shape).
Proof.
  intros o per roi shape HO (H1 & H2 & H3 & H4 & H5). repeat split; rewrite ?arr_length; auto.
  - rewrite (axes_length _ _ HO). exact H2.
  - apply forall_arr; auto. rewrite H1. exact HO.
  - apply forall_arr; auto.
  - intros HP. apply (half_arr o (length shape)); auto.
Qed.

Lemma moved_arr_iff : forall o per s d p p' q q', axes o (length s) -> length d = length s -> permutes o s p p' -> permutes o s q q' ->
  movedb per s (coords s p) d (coords s q) = movedb per (arr o s) (coords (arr o s) p') (arr o d) (coords (arr o s) q').
Proof.
  intros o per s d p p' q q' HO L (_ & _ & E) (_ & _ & E'). apply bool_iff. rewrite !movedb_iff, E, E'. split; intros M.
  - apply (moved_arr o (length s)); auto.
  - destruct (arr_inverse o _ HO) as (o' & HO' & I1 & I2). apply (moved_arr o' (length s) HO') in M; [|rewrite arr_length; apply axes_length; exact HO].
    rewrite !I1 in M; auto; apply coords_length.
Qed.

Lemma permuted_call : forall asrt order per var roi shape c c', shapes per roi shape -> axes order (length shape) ->
  carried_call (permutes order shape) shape (arranged 0 order shape) c c' ->
  exists e e', fresh asrt roi per var c = Ok e /\ fresh asrt (arranged 0 order roi) per var c' = Ok e' /\
    forall r r', pixel roi r -> pixel (arranged 0 order roi) r' -> offset (arranged 0 order roi) r' = arranged 0 order (offset roi r) -> same_at e r e' r'.
Proof.
  intros asrt o per var roi shape c c' HS HO HC. pose proof (shapes_arr o _ _ _ HO HS) as HS'.
  assert (HP : Forall (fun n => 0 < n) shape) by (apply image_pos; apply HS).
  destruct (moved_call asrt per var roi (arr o roi) shape (arr o shape) (permutes o shape) c c' (arr o) HS HS') as (e & e' & E & E' & S1 & S2 & V); auto.
  - apply permutes_matching; auto.
  - intros. apply moved_arr_iff; auto.
  - right. intros. apply moved_arr_iff; auto.
  - exists e, e'. auto.
Qed.

(** ** Along paths: three axes *)
Definition three_axes (o : list nat) : list nat :=
  match o with [a; b] => [a; b; 2%nat] | [_; _; _] => o | _ => [0%nat; 1%nat; 2%nat] end.

Lemma axes_small : forall o n, axes o n -> (n <= 3)%nat ->
  o = [] \/ o = [0%nat] \/ o = [0%nat; 1%nat] \/ o = [1%nat; 0%nat] \/ (n = 3%nat /\ exists a b c, o = [a; b; c]).
Proof.
  intros o n H L. pose proof (axes_length _ _ H) as LO. destruct o as [|a [|b [|c [|d o]]]]; cbn in LO; auto; try lia.
  - right. left. pose proof (axes_bound _ _ 0%nat H ltac:(lia)) as B. cbn in B. f_equal. lia.
  - right. right. pose proof (axes_bound _ _ 0%nat H ltac:(lia)) as B0. pose proof (axes_bound _ _ 1%nat H ltac:(lia)) as B1. cbn in B0, B1.
    assert (a <> b). { intros ->. pose proof (axes_inj _ _ 0%nat 1%nat H ltac:(lia) ltac:(lia) eq_refl). lia. }
    destruct (Nat.eq_dec a 0); [left|right; left]; repeat f_equal; lia.
  - repeat right. split; [lia|]. exists a, b, c. reflexivity.
Qed.

Lemma three_axes_perm : forall o n, axes o n -> (n <= 3)%nat -> axes (three_axes o) 3.
Proof.
  intros o n H L. destruct (axes_small o n H L) as [-> |[-> |[-> |[-> |(-> & a & b & c & ->)]]]]; cbn [three_axes]; unfold axes; try reflexivity.
  - apply perm_swap.
  - exact H.
Qed.

Lemma lift_arr : forall o (x : list Z), axes o (length x) -> (length x <= 3)%nat -> lift (arr o x) = arr (three_axes o) (lift x).
Proof.
  intros o x H L. pose proof (axes_length _ _ H) as LO. destruct (axes_small o _ H L) as [-> |[-> |[-> |[-> |(E & a & b & c & ->)]]]];
    destruct x as [|x0 [|x1 [|x2 [|x3 x]]]]; cbn in LO, L; try lia; try reflexivity.
Qed.

Lemma three_arr : forall o (s : list Z), axes o (length s) -> (length s <= 3)%nat -> three (arr o s) = arr (three_axes o) (three s).
Proof.
  intros o x H L. pose proof (axes_length _ _ H) as LO. destruct (axes_small o _ H L) as [-> |[-> |[-> |[-> |(E & a & b & c & ->)]]]];
    destruct x as [|x0 [|x1 [|x2 [|x3 x]]]]; cbn in LO, L; try lia; try reflexivity.
Qed.

Lemma axes_three : forall P, axes P 3 -> P = [0;1;2]%nat \/ P = [0;2;1]%nat \/ P = [1;0;2]%nat \/ P = [1;2;0]%nat \/ P = [2;0;1]%nat \/ P = [2;1;0]%nat.
Proof.
  intros P H. pose proof (axes_length _ _ H) as LO. destruct P as [|a [|b [|c [|d P]]]]; cbn in LO; try lia.
  pose proof (axes_bound _ _ 0%nat H ltac:(lia)) as B0. pose proof (axes_bound _ _ 1%nat H ltac:(lia)) as B1. pose proof (axes_bound _ _ 2%nat H ltac:(lia)) as B2. cbn in B0, B1, B2.
  assert (N01 : a <> b). { intros ->. pose proof (axes_inj _ _ 0%nat 1%nat H ltac:(lia) ltac:(lia) eq_refl). lia. }
  assert (N02 : a <> c). { intros ->. pose proof (axes_inj _ _ 0%nat 2%nat H ltac:(lia) ltac:(lia) eq_refl). lia. }
  assert (N12 : b <> c). { intros ->. pose proof (axes_inj _ _ 1%nat 2%nat H ltac:(lia) ltac:(lia) eq_refl). lia. }
  clear - B0 B1 B2 N01 N02 N12.
  destruct a as [|[|[|a]]], b as [|[|[|b]]], c as [|[|[|c]]]; try lia; tauto.
Qed.

Lemma permuted_walk : forall asrt order per var roi shape c c', shapes per roi shape -> axes order (length shape) ->
  carried_walk (permutes order shape) shape (arranged 0 order shape) c c' -> walks_in roi c -> walks_in (arranged 0 order roi) c -> ~ goes_by full c ->
  exists e e', fresh asrt roi per var c = Ok e /\ fresh asrt (arranged 0 order roi) per var c' = Ok e' /\ roi_shaped roi e /\ roi_shaped (arranged 0 order roi) e' /\
    forall r r', pixel roi r -> pixel (arranged 0 order roi) r' -> offset (arranged 0 order roi) r' = arranged 0 order (offset roi r) -> same_at e r e' r'.
Proof.
  intros asrt o per var roi shape c c' HS HO HC HW HW' HB. pose proof (shapes_arr o _ _ _ HO HS) as HSr.
  destruct (shapes_dims3 _ _ _ HS) as (n0 & n1 & n2 & k0 & k1 & k2 & HD). destruct (shapes_dims3 _ _ _ HSr) as (n0' & n1' & n2' & k0' & k1' & k2' & HD').
  assert (HP : Forall (fun n => 0 < n) shape) by (apply image_pos; apply HS). destruct HS as (HL & H3 & HK & HN & HF) eqn:HS'. clear HS'.
  destruct (walk_mode _ _ HW) as (mode & HG).
  set (P := three_axes o). assert (HP3 : axes P 3) by (apply (three_axes_perm o (length shape)); auto).
  set (D := arr P). destruct (arr_inverse P 3 HP3) as (P' & HP3' & I1 & I2).
  assert (LP : length P = 3%nat) by (apply axes_length; auto). assert (LP' : length P' = 3%nat) by (apply axes_length; auto).
  assert (HOr : axes o (length roi)) by (rewrite HL; exact HO).
  assert (RK : three (arr o roi) = D (three roi)) by (apply three_arr; auto; lia).
  assert (RN : three (arr o shape) = D (three shape)) by (apply three_arr; auto).
  rewrite (three_eq roi k0 k1 k2), (three_eq (arr o roi) k0' k1' k2') in RK by (apply HD || apply HD').
  assert (DE : forall a b d, In [a; b; d] (edge [k0; k1; k2]) <-> In (D [a; b; d]) (edge [k0'; k1'; k2'])).
  { intros a b d. unfold D in *. destruct (axes_three P HP3) as [ES|[ES|[ES|[ES|[ES|ES]]]]]; rewrite ES in *; cbn [arranged map nth] in *; injection RK as -> -> ->;
      rewrite ?(edge_iff _ _ _ _ _ _ _ _ _ HD), ?(edge_iff _ _ _ _ _ _ _ _ _ HD'); tauto. }
  assert (KS : k0' + k1' + k2' = k0 + k1 + k2).
  { unfold D in RK. destruct (axes_three P HP3) as [ES|[ES|[ES|[ES|[ES|ES]]]]]; rewrite ES in RK; cbn [arranged map nth] in RK; injection RK as -> -> ->; lia. }
  assert (D0 : D [0; 0; 0] = [0; 0; 0]) by (unfold D; destruct (axes_three P HP3) as [-> |[-> |[-> |[-> |[-> | ->]]]]]; reflexivity).
  assert (DL : forall x, length (D x) = 3%nat) by (intros; unfold D; rewrite arr_length; exact LP).
  destruct (walk_moved asrt per var roi shape (arr o roi) (arr o shape) _ _ _ _ _ _ _ _ _ _ _ _ (permutes o shape) D mode c c' HS HSr HD HD') as (e & e' & E & E' & S1 & S2 & V); eauto using carried_walks.
  - apply permutes_matching; auto.
  - intros x y Lx Ly E. apply (f_equal (arr P')) in E. unfold D in E. rewrite !I1 in E by auto. exact E.
  - intros x IN. destruct (edge_three _ _ _ x IN) as (a & b & d & ->). apply DE. exact IN.
  - intros y IN. pose proof (edge_length [k0'; k1'; k2'] y eq_refl IN) as LY. pose proof (I2 Z 0 y LY) as P2.
    assert (X : length (arr P' y) = 3%nat) by (rewrite arr_length; exact LP').
    exists (arr P' y). split; auto. rewrite <- P2 in IN. fold D in IN. destruct (arr P' y) as [|a [|b [|d [|? ?]]]]; try discriminate. apply DE. exact IN.
  - intros x IN. apply (path_for_changed per roi shape n0 n1 n2 k0 k1 k2 n0' n1' n2' k0' k1' k2' (arr o roi) (arr o shape) mode D x); auto.
    + eapply walk_walkable; eauto.
    + eapply walk_walkable; eauto.
    + destruct (edge_three _ _ _ x IN) as (a & b & d & ->). apply DE. exact IN.
    + intros NE SP FU. pose proof (edge_length [k0; k1; k2] x eq_refl IN) as LX.
      rewrite <- D0 at 1. apply path_axes; auto; [|cbn; lia].
      destruct mode; auto. contradiction.
  - intros x p p' q q' LX Tp Tq. pose proof Tp as (Pp & Pp' & Mp). pose proof Tq as (Pq & Pq' & Mq).
    assert (CP : forall p p', pixel shape p -> pixel (arr o shape) p' -> coords (arr o shape) p' = arr o (coords shape p) -> coords (three (arr o shape)) p' = D (coords (three shape) p)).
    { intros z z' Hz Hz' EZ. rewrite !coords_three, EZ; auto; [|rewrite arr_length, (axes_length _ _ HO); exact H3|apply forall_arr; auto].
      apply lift_arr; rewrite coords_length; auto. }
    assert (LS : length (three shape) = 3%nat) by (rewrite (three_eq shape n0 n1 n2) by apply HD; reflexivity).
    rewrite (CP p p'), (CP q q') by auto. rewrite RN.
    apply bool_iff. rewrite !movedb_iff. split; intros M; [apply (moved_arr P 3); auto|].
    apply (moved_arr P' 3 HP3') in M; [|unfold D; rewrite arr_length; exact LP]. unfold D in M. rewrite !I1 in M; auto; rewrite coords_length; exact LS.
  - exists e, e'. repeat (split; auto; []). intros r r' Hr Hr' HX. apply V; auto.
    assert (HKp : Forall (fun n => 1 <= n) roi) by (eapply Forall_impl; [|exact HK]; cbn; intros; lia).
    assert (LO : length (offset roi r) = length roi) by (unfold offset, diff; rewrite map_length, combine_length, coords_length, anchor_length; lia).
    rewrite !offset_three, HX; auto; try lia; [|rewrite arr_length, (axes_length _ _ HO); exact H3|apply forall_arr; auto].
    apply lift_arr; rewrite LO; auto. lia.
Qed.

(** ** Read off at the entry of the result the axes of the region of interest lead to *)
Lemma diff_nth : forall a b i, length a = length b -> nth i (diff a b) 0 = nth i a 0 - nth i b 0.
Proof.
  unfold diff. induction a as [|x a IH]; intros [|y b] i L; cbn in L; try lia; cbn [combine map fst snd]; [destruct i; reflexivity|].
  destruct i; cbn [nth]; [reflexivity|]. apply IH. lia.
Qed.

Lemma offset_permuted : forall o roi r r', axes o (length roi) -> permutes o roi r r' -> offset (arr o roi) r' = arr o (offset roi r).
Proof.
  intros o roi r r' HO (_ & _ & E). pose proof (axes_length _ _ HO) as LO. unfold offset. rewrite E, anchor_arr by exact HO.
  assert (LD : forall a b : list Z, length a = length b -> length (diff a b) = length a) by (intros; unfold diff; rewrite map_length, combine_length; lia).
  assert (LC : length (coords roi r) = length (anchor roi)) by (rewrite coords_length, anchor_length; reflexivity).
  apply (arr_ext Z 0); rewrite LD by (rewrite !arr_length; reflexivity); rewrite ?arr_length; auto.
  intros i Hi. rewrite diff_nth by (rewrite !arr_length; reflexivity). rewrite !arr_nth by lia. rewrite diff_nth by exact LC. reflexivity.
Qed.

Theorem permuted_statistics : forall asrt order per var roi shape c c', shapes per roi shape -> axes order (length shape) ->
  carried_call (permutes order shape) shape (arranged 0 order shape) c c' ->
  exists e e', fresh asrt roi per var c = Ok e /\ fresh asrt (arranged 0 order roi) per var c' = Ok e' /\
    forall r r', permutes order roi r r' -> same_at e r e' r'.
Proof.
  intros asrt o per var roi shape c c' HS HO HC. destruct (permuted_call asrt o per var roi shape c c' HS HO HC) as (e & e' & E & E' & V).
  exists e, e'. split; [exact E|]. split; [exact E'|]. intros r r' T. apply V; try apply T. apply offset_permuted; auto. rewrite (proj1 HS). exact HO.
Qed.

Theorem permuted_paths : forall asrt order per var roi shape c c', shapes per roi shape -> axes order (length shape) ->
  carried_walk (permutes order shape) shape (arranged 0 order shape) c c' -> walks_in roi c -> walks_in (arranged 0 order roi) c -> ~ goes_by full c ->
  exists e e', fresh asrt roi per var c = Ok e /\ fresh asrt (arranged 0 order roi) per var c' = Ok e' /\
    forall r r', permutes order roi r r' -> same_at e r e' r'.
Proof.
  intros asrt o per var roi shape c c' HS HO HC H1 H2 H3. destruct (permuted_walk asrt o per var roi shape c c' HS HO HC H1 H2 H3) as (e & e' & E & E' & _ & _ & V).
  exists e, e'. split; [exact E|]. split; [exact E'|]. intros r r' T. apply V; try apply T. apply offset_permuted; auto. rewrite (proj1 HS). exact HO.
Qed.
