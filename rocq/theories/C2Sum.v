(** * C2Sum: the sum rule of the cluster function (proofs only) *)

From Coq Require Import ZArith QArith Qcanon List Bool Lia Sorted.
From Verif Require Import Base BaseLemmas Cluster SpecCluster ClusterTop Labels SpecLabels LabelsTop LabelLaws SpecDilate
  Ensemble SpecEnsemble EnsembleSums EnsembleTop SpecRelations DerivedRelations SpecC2Sum.
Import ListNotations.
Open Scope Z_scope.

Lemma zsum_zero : forall {A} (f : A -> Z) l, (forall x, In x l -> f x = 0) -> zsum (map f l) = 0.
Proof. induction l as [|x l IH]; intros H; [reflexivity|]. cbn [map zsum]. rewrite H by now left. rewrite IH; [lia|]. intros; apply H; now right. Qed.

Lemma zsum_plus : forall {A} (f g : A -> Z) l, zsum (map (fun x => f x + g x) l) = zsum (map f l) + zsum (map g l).
Proof. induction l as [|x l IH]; [reflexivity|]. cbn [map zsum]. lia. Qed.

Lemma zsum_pick : forall (h : Z -> Z) v keys, NoDup keys -> In v keys -> zsum (map (fun k => if v =? k then h k else 0) keys) = h v.
Proof.
  intros h v keys ND IN. induction keys as [|k keys IH]; [destruct IN|]. inversion ND as [|? ? N1 N2]; subst. cbn [map zsum].
  destruct (v =? k) eqn:E.
  - apply Z.eqb_eq in E. subst k. rewrite zsum_zero; [lia|]. intros x Hx. destruct (v =? x) eqn:E'; [|reflexivity]. apply Z.eqb_eq in E'. subst x. contradiction.
  - rewrite IH; auto. destruct IN as [->|IN]; [|exact IN]. rewrite Z.eqb_refl in E. discriminate.
Qed.

(** A sum over the pixels, grouped by label. *)
Lemma grouped : forall (h : Z -> Z) keys l, NoDup keys -> (forall v, In v l -> In v keys) ->
  zsum (map h l) = zsum (map (fun k => occurrences l k * h k) keys).
Proof.
  intros h keys l ND. induction l as [|v l IH]; intros HK.
  - cbn [map zsum occurrences]. rewrite zsum_zero; [reflexivity|]. intros; reflexivity.
  - cbn [map zsum]. rewrite IH by (intros; apply HK; now right). rewrite <- (zsum_pick h v keys ND) at 1 by (apply HK; now left).
    rewrite <- zsum_plus. f_equal. apply map_ext. intros k. cbn [occurrences]. destruct (v =? k); lia.
Qed.

Lemma sizes_grouped : forall (h : Z -> Z) l, zsum (map h l) = zsum (map (fun kc => snd kc * h (fst kc)) (labels_sizes l)).
Proof.
  intros h l. destruct (sizes_spec l) as (S & C & _).
  assert (ND : NoDup (map fst (labels_sizes l))).
  { clear C. induction S as [|k t S IH H]; constructor; auto. intros IN. rewrite Forall_forall in H. specialize (H k IN). lia. }
  rewrite (grouped h (map fst (labels_sizes l)) l ND).
  - rewrite map_map. f_equal. apply map_ext_in. intros [k c] IN. cbn [fst snd]. apply C in IN. destruct IN as [_ ->]. reflexivity.
  - intros v IN. apply in_map_iff. exists (v, occurrences l v). split; [reflexivity|]. apply C. auto.
Qed.

Lemma sum_zq : forall {A} (f : A -> Z) l, sum_over l (fun x => zq (f x)) = zq (zsum (map f l)).
Proof. induction l as [|x l IH]; [symmetry; apply zq_0|]. rewrite sum_cons. cbn [map zsum]. rewrite zq_plus, IH. reflexivity. Qed.

Lemma map_zn : forall (l : list Z), map (zn l) (zrange 0 (lenZ l)) = l.
Proof.
  intros l. apply nth_ext with 0 0.
  - rewrite map_length. unfold zrange, lenZ. rewrite zseq_length. lia.
  - intros i Hi. rewrite map_length in Hi. unfold zrange in *. rewrite zseq_length in Hi. unfold lenZ in *.
    rewrite (nth_indep _ 0 (zn l 0)) by (rewrite map_length, zseq_length; lia). rewrite map_nth.
    assert (N : nth i (zseq 0 (Z.to_nat (Z.of_nat (length l) - 0))) 0 = Z.of_nat i).
    { clear -Hi. assert (G : forall n a j, (j < n)%nat -> nth j (zseq a n) 0 = a + Z.of_nat j).
      { induction n; intros a j Hj; [lia|]. destruct j; cbn [zseq nth]; [lia|]. rewrite IHn by lia. lia. }
      rewrite G by lia. lia. }
    rewrite N. unfold zn. rewrite Nat2Z.id. reflexivity.
Qed.

Lemma pairs_of_labels : forall shape (f g : img Z), is_image shape f -> is_image shape g ->
  sum_over (list_prod (pixels shape) (pixels shape)) (fun pq => if same_label (i_vals f) (i_vals g) pq then 1%Qc else 0%Qc) =
  zq (joint_sizes (i_vals f) (i_vals g)).
Proof.
  intros shape f g [_ Hf] [_ Hg]. unfold pixels, joint_sizes. rewrite sum_prod.
  rewrite (sum_ext _ _ _ (fun p => zq (if zn (i_vals f) p =? 0 then 0 else occurrences (i_vals g) (zn (i_vals f) p)))).
  - rewrite sum_zq, <- Hf. rewrite <- (map_map (zn (i_vals f)) (fun v => if v =? 0 then 0 else occurrences (i_vals g) v)), map_zn, sizes_grouped.
    f_equal. f_equal. apply map_ext. intros [k c]. cbn [fst snd]. destruct (k =? 0); lia.
  - intros p _. unfold same_label. cbn [fst snd]. destruct (zn (i_vals f) p =? 0); cbn [negb andb].
    + rewrite (sum_ext _ _ _ (fun _ => zq 0)) by (intros; symmetry; apply zq_0). rewrite (sum_zq (fun _ => 0)), zsum_zero; auto.
    + rewrite (sum_ext _ _ _ (fun q => zq (if zn (i_vals g) q =? zn (i_vals f) p then 1 else 0))).
      * rewrite sum_zq, occurrences_marks. f_equal. transitivity (zsum (map (fun l => if l =? zn (i_vals f) p then 1 else 0) (map (zn (i_vals g)) (zrange 0 (lenZ (i_vals g)))))); [rewrite map_map, Hg; reflexivity|rewrite map_zn; reflexivity].
      * intros q _. rewrite Z.eqb_sym. destruct (zn (i_vals g) q =? zn (i_vals f) p); symmetry; [apply zq_1|apply zq_0].
Qed.

Lemma C2_sum_rule : forall asrt var shape f g, shapes true shape shape -> is_image shape f -> is_image shape g ->
  exists e s, fresh asrt shape true var (CallC2 f g None) = Ok e /\
    (forall r, pixel shape r -> result_at e r = Exact (s r)) /\
    (sum_over (pixels shape) s = zq (joint_sizes (i_vals f) (i_vals g)) / zq (zprod shape))%Qc.
Proof.
  intros asrt var shape f g HS Hf Hg. destruct (C2_periodic asrt var shape shape f g HS Hf Hg) as (e & E & _ & V).
  exists e, (fun r => first_at e r / zq (zprod shape))%Qc. split; auto.
  pose proof (len_pos shape (shape_pos _ _ _ HS)) as LP. pose proof (zq_nonzero _ LP) as NZ.
  split. { intros r Hr. destruct (V r Hr) as (_ & V2 & V3). rewrite V3, V2. unfold quotient. destruct (Qceq_b (zq (zprod shape)) 0) eqn:Z0; [|reflexivity].
    exfalso. apply NZ. now apply Qceq_b_iff. }
  rewrite (sum_ext _ (pixels shape) _ (fun r => / zq (zprod shape) * first_at e r)%Qc) by (intros; unfold Qcdiv; ring).
  rewrite sum_scale. rewrite (sum_ext _ (pixels shape) _ (fun r => sum_over (pairs true shape (offset shape r)) (fun pq => if same_label (i_vals f) (i_vals g) pq then 1%Qc else 0%Qc))).
  - rewrite sum_of_offsets by apply HS. rewrite (pairs_of_labels shape f g Hf Hg). unfold Qcdiv. ring.
  - intros r Hr. apply zrange_In in Hr. destruct (V r Hr) as (V1 & _). rewrite V1, <- sum_one, sum_filter. reflexivity.
Qed.

(** For one image: the sum of the squares of the sizes. *)
Lemma C2_sizes : forall asrt var shape f, shapes true shape shape -> is_image shape f ->
  exists e s, fresh asrt shape true var (CallC2 f f None) = Ok e /\
    (forall r, pixel shape r -> result_at e r = Exact (s r)) /\
    (sum_over (pixels shape) s = zq (squared_sizes (i_vals f)) / zq (zprod shape))%Qc.
Proof.
  intros asrt var shape f HS Hf. destruct (C2_sum_rule asrt var shape f f HS Hf Hf) as (e & s & A & B & C).
  exists e, s. split; [exact A|]. split; [exact B|]. rewrite C. f_equal. f_equal. unfold joint_sizes, squared_sizes. f_equal. apply map_ext_in. intros [k c] IN. cbn [fst snd].
  apply (proj1 (proj2 (sizes_spec (i_vals f)))) in IN. destruct IN as [_ ->]. reflexivity.
Qed.

(** Each cluster contributes the square of its size. *)
Lemma C2_of_clusters : forall asrt var shape f, shapes true shape shape -> good_shape shape -> is_image shape f ->
  exists lab e s, clusters asrt shape (i_vals f) true = Ok lab /\
    fresh asrt shape true var (CallC2 (mkimg shape lab) (mkimg shape lab) None) = Ok e /\
    (forall r, pixel shape r -> result_at e r = Exact (s r)) /\
    (sum_over (pixels shape) s = zq (squared_sizes lab) / zq (zprod shape))%Qc.
Proof.
  intros asrt var shape f HS HG Hf.
  assert (H3 : (length shape <= 3)%nat) by apply HS.
  destruct (clusters_ok asrt shape (i_vals f) true HG H3 (proj2 Hf)) as (lab & E & HL & _).
  exists lab. destruct (C2_sizes asrt var shape (mkimg shape lab) HS) as (e & s & A & B & C); [split; [reflexivity|exact HL]|].
  exists e, s. auto.
Qed.
