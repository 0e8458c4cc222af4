(** * EulerS2: the pairs of neighbours counted by S2 (proofs only) *)

From Coq Require Import ZArith QArith Qcanon List Bool Lia.
From Verif Require Import Base BaseLemmas ClusterGeom TileMore Array3 Array3Lemmas
  Ensemble SpecEnsemble EnsembleSums EnsembleTop SpecSymmetry SpecAlgebra DerivedAlgebra SpecAxis AxisTop UnitTop UnitLineal SpecEuler EulerTop SpecCluster Cluster.
Import ListNotations.
Open Scope Z_scope.

Lemma zeros_moved : forall per shape x, inside shape x -> moved per shape x (repeat 0 (length shape)) x.
Proof.
  intros per. induction shape as [|n shape IH]; intros [|u x] I; cbn [length repeat moved inside] in *; try contradiction; auto.
  destruct I as [I1 I2]. split; [|apply IH; auto]. rewrite Z.add_0_r. destruct per; [rewrite Z.mod_small by lia|]; auto.
Qed.

Lemma face_axis : forall per shape x y, inside shape x -> inside shape y -> face per shape x y ->
  exists a, (a < length shape)%nat /\ (moved per shape x (along (length shape) a 1) y \/ moved per shape y (along (length shape) a 1) x).
Proof.
  intros per. induction shape as [|n shape IH]; intros [|u x] [|v y] Ix Iy F; cbn [face] in F; try contradiction.
  destruct Ix as [I1 I2]. destruct Iy as [J1 J2]. cbn [length]. destruct F as [[<- F]|[F <-]].
  - destruct (IH x y I2 J2 F) as (a & Ha & M). exists (S a). split; [lia|]. rewrite along_tail. cbn [moved]. rewrite Z.add_0_r.
    assert (E : if per then u = u mod n else u = u) by (destruct per; [rewrite Z.mod_small by lia|]; auto). tauto.
  - exists 0%nat. split; [lia|]. rewrite along_head. cbn [moved]. pose proof (zeros_moved per shape x I2) as Z0.
    destruct per; destruct F as [-> | ->]; [left; auto| |left; auto|]; right; (split; [|exact Z0]); [|lia].
    rewrite Zplus_mod_idemp_l. replace (u - 1 + 1) with u by lia. rewrite Z.mod_small by lia. reflexivity.
Qed.

Definition both (f : list Z) (pq : Z * Z) : bool := negb (zn f (fst pq) =? 0) && negb (zn f (snd pq) =? 0).

Lemma S2_counts : forall asrt per var roi shape f, shapes per roi shape -> is_image shape f ->
  exists e, fresh asrt roi per var (CallS2 (indicator f) (indicator f) None) = Ok e /\
    forall r, pixel roi r -> first_at e r = zq (lenZ (filter (both (i_vals f)) (pairs per shape (offset roi r)))).
Proof.
  intros asrt per var roi shape f HS Hf.
  destruct (S2_any asrt per var roi shape (indicator f) (indicator f) None HS (each_image _ _ _ _ _ Hf) (each_image _ _ _ _ _ Hf) I) as (e & E & _ & V).
  exists e. split; [exact E|]. intros r Hr. destruct (V r Hr) as (A & _). cbn [mask2 fst snd zeros i_vals] in A. rewrite seen_zeros in A.
  rewrite A, count_sum. apply sum_ext. intros [p q] IP. apply pairs_In in IP. destruct IP as (P & Q & _). cbn [fst snd].
  rewrite (indicator_qn shape f p), (indicator_qn shape f q) by auto. unfold both. cbn [fst snd].
  destruct (zn (i_vals f) p =? 0), (zn (i_vals f) q =? 0); reflexivity.
Qed.

Section Pairs.
Variables (per : bool) (shape f : list Z).
Hypothesis HN : Forall (fun n => 1 <= n) shape.

Let HP : Forall (fun n => 0 < n) shape.
Proof. eapply Forall_impl; try exact HN; intros; simpl in *; lia. Qed.

Definition steps (a : nat) : list (Z * Z) := filter (both f) (pairs per shape (along (length shape) a 1)).
Definition all_steps : list (Z * Z) := flat_map steps (seq 0 (length shape)).
Definition ordered (pq : Z * Z) : Z * Z := (Z.min (fst pq) (snd pq), Z.max (fst pq) (snd pq)).
Definition pair_dec : forall x y : Z * Z, {x = y} + {x <> y}.
Proof. decide equality; apply Z.eq_dec. Defined.
Definition edge_list : list (Z * Z) := nodup pair_dec (filter (fun pq => fst pq <? snd pq) (map ordered all_steps)).

Lemma nodup_le : forall l : list (Z * Z), (length (nodup pair_dec l) <= length l)%nat.
Proof. intros l. apply NoDup_incl_length; [apply NoDup_nodup|]. intros x Hx. apply nodup_In in Hx. exact Hx. Qed.

Lemma filter_le : forall A (b : A -> bool) l, (length (filter b l) <= length l)%nat.
Proof. intros A b l. induction l as [|x l IH]; cbn [filter length]; [lia|]. destruct (b x); cbn [length]; lia. Qed.

Lemma edge_list_length : lenZ edge_list <= lenZ all_steps.
Proof.
  unfold lenZ, edge_list. apply inj_le. eapply Nat.le_trans; [apply nodup_le|]. eapply Nat.le_trans; [apply filter_le|]. rewrite map_length. lia.
Qed.

Lemma edge_list_ok : edges per shape (fun x => pixel shape x /\ zn f x <> 0) edge_list.
Proof.
  split; [apply NoDup_nodup|]. intros x y. unfold edge_list. rewrite nodup_In, filter_In, in_map_iff. cbn [fst snd]. rewrite Z.ltb_lt. split.
  - intros [([p q] & E & IN) LT]. unfold all_steps in IN. apply in_flat_map in IN. destruct IN as (a & Ha & IN). apply in_seq in Ha.
    unfold steps in IN. apply filter_In in IN. destruct IN as [IN B]. apply pairs_In in IN. destruct IN as (P & Q & M). apply movedb_iff in M.
    unfold both in B. cbn [fst snd] in B. apply andb_true_iff in B. destruct B as [B1 B2]. apply negb_true_iff, Z.eqb_neq in B1, B2.
    assert (F : face_neighbour per shape p q).
    { split; [exact P|]. split; [exact Q|]. apply (unit_face per shape a 1); auto using coords_inside. lia. }
    unfold ordered in E. cbn [fst snd] in E. injection E as E1 E2. split; [exact LT|].
    destruct (Z_lt_le_dec p q) as [L|G].
    + rewrite Z.min_l in E1 by lia. rewrite Z.max_r in E2 by lia. subst x y. auto.
    + rewrite Z.min_r in E1 by lia. rewrite Z.max_l in E2 by lia. subst x y. split; [auto|]. split; [auto|]. apply face_neighbour_back; auto.
  - intros (LT & [Px Nx] & [Py Ny] & (_ & _ & F)). split; [|exact LT].
    destruct (face_axis per shape (coords shape x) (coords shape y)) as (a & Ha & M); auto using coords_inside.
    assert (IN : forall p q, pixel shape p -> pixel shape q -> zn f p <> 0 -> zn f q <> 0 -> moved per shape (coords shape p) (along (length shape) a 1) (coords shape q) -> In (p, q) all_steps).
    { intros p q P Q Np Nq Mpq. unfold all_steps. apply in_flat_map. exists a. split; [apply in_seq; lia|]. unfold steps. apply filter_In. split.
      - apply pairs_In. split; [exact P|]. split; [exact Q|]. apply movedb_iff. exact Mpq.
      - unfold both. cbn [fst snd]. apply Z.eqb_neq in Np, Nq. rewrite Np, Nq. reflexivity. }
    destruct M as [M|M]; [exists (x, y)|exists (y, x)]; (split; [unfold ordered; cbn [fst snd]; f_equal; lia|apply IN; auto]).
Qed.

Lemma here_count : forall a, lenZ (filter (both f) (pairs per shape (along (length shape) a 0))) = foreground shape f.
Proof.
  intros a. apply zq_inj. unfold foreground. rewrite !count_sum. rewrite (sum_pairs_zero per shape); auto using along_length.
  - apply sum_ext. intros p _. unfold both. cbn [fst snd]. destruct (zn f p =? 0); reflexivity.
  - intros z Hz. unfold along in Hz. apply in_map_iff in Hz. destruct Hz as (i & <- & _). destruct (Nat.eqb i a); reflexivity.
Qed.
End Pairs.

Lemma euler_S2 : forall asrt per var roi shape f, shapes per roi shape -> good_shape shape -> is_image shape f ->
  exists lab N e, clusters asrt shape (i_vals f) per = Ok lab /\ (forall v, 1 <= v <= N <-> v <> 0 /\ In v lab) /\
    fresh asrt roi per var (CallS2 (indicator f) (indicator f) None) = Ok e /\
    forall r0 rs, pixel roi r0 -> offset roi r0 = along (length shape) 0 0 ->
      Forall2 (fun a r => pixel roi r /\ offset roi r = along (length shape) a 1) (seq 0 (length shape)) rs ->
      (zq N <= first_at e r0)%Qc /\ (first_at e r0 <= zq N + sum_over rs (first_at e))%Qc.
Proof.
  intros asrt per var roi shape f HS HG Hf. assert (H3 : (length shape <= 3)%nat) by apply HS. assert (HN : Forall (fun n => 1 <= n) shape) by apply HS.
  destruct (euler_clusters asrt per shape HG H3 (i_vals f) (proj2 Hf)) as (lab & N & EL & HL & UP & LO).
  destruct (S2_counts asrt per var roi shape f HS Hf) as (e & E & V).
  exists lab, N, e. do 3 (split; [assumption|]). intros r0 rs H0 O0 HR.
  rewrite (V r0 H0), O0, here_count by exact HN. split; [apply zq_le; exact UP|].
  assert (SR : sum_over rs (first_at e) = zq (lenZ (all_steps per shape (i_vals f)))).
  { unfold all_steps. revert HR. generalize (seq 0 (length shape)). intros l HR. induction HR as [|a r l rs [Hr Or] HR IH]; [symmetry; apply zq_0|].
    rewrite sum_cons, IH, (V r Hr), Or. cbn [flat_map]. unfold lenZ at 3. rewrite app_length, Nat2Z.inj_add, zq_plus. reflexivity. }
  rewrite SR, <- zq_plus. apply zq_le. specialize (LO _ (edge_list_ok per shape (i_vals f) HN)). pose proof (edge_list_length per shape (i_vals f)). lia.
Qed.
