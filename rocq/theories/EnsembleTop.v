(** * EnsembleTop: the statements about windowed measures (proofs only) *)

From Coq Require Import ZArith QArith Qcanon List Bool Lia Permutation.
From Verif Require Import Base BaseLemmas SpecCluster ClusterGeom Array3 Array3Lemmas Path SpecPath SpecDilate DilateTop Ensemble SpecEnsemble EnsembleSums EnsembleLin EnsembleWindow.
Import ListNotations.
Open Scope Z_scope.

(** ** Reading *)

Lemma ok_shaped : forall s per var roi k0 k1 k2 e, shape3 roi = Ok (k0, k1, k2) -> okS s per var roi k0 k1 k2 e -> roi_shaped roi e.
Proof.
  intros s per var roi k0 k1 k2 e Hk [[_ _ _ (_ & _ & _ & L1) (_ & _ & _ & L2) (_ & _ & _ & L3)] _]. unfold roi_shaped, data_first, data_second, norm, result.
  rewrite (shape3_prod _ _ _ _ Hk). split; auto. split; auto. split; auto.
  unfold lenZ in *. rewrite map_length, combine_length. lia.
Qed.

Lemma nth_combine : forall A B (a : A) (b : B) l l' n, length l = length l' -> nth n (combine l l') (a, b) = (nth n l a, nth n l' b).
Proof. intros. apply combine_nth. auto. Qed.

Lemma result_at_eq : forall s per var roi k0 k1 k2 e r, okS s per var roi k0 k1 k2 e -> 0 <= r < k0 * k1 * k2 ->
  result_at e r = (let v := Exact (first_at e r / safe (norm_at e r))%Qc in match s with S_heightheight => root v | _ => v end).
Proof.
  intros s per var roi k0 k1 k2 e r [[_ _ _ (_ & _ & _ & L1) _ (_ & _ & _ & L3)] <-] Hr. unfold result_at, result, first_at, norm_at, data_first, norm, qn.
  set (g := fun fn : Qc * Qc => _). rewrite (nth_indep _ NaN (g (0%Qc, 0%Qc))) by (unfold lenZ in *; rewrite map_length, combine_length; lia).
  rewrite map_nth, nth_combine by (unfold lenZ in *; lia). reflexivity.
Qed.

Lemma zq_nonneg : forall n, 0 <= n -> (0 <= zq n)%Qc.
Proof. intros. rewrite <- zq_0. apply zq_le. auto. Qed.

Lemma safe_count : forall n s, 0 <= n -> (n = 0 -> s = 0%Qc) -> (s / safe (zq n) = quotient s (zq n))%Qc.
Proof.
  intros n s Hn H0. unfold safe, quotient. destruct (Z.eq_dec n 0) as [->|N].
  - rewrite zq_0, H0 by auto. replace (Qceq_b 0 0) with true by reflexivity. destruct (Qclt_b 0 0); apply Qc_is_canon; reflexivity.
  - assert (L : Qclt_b 0 (zq n) = true) by (apply Qclt_b_iff; rewrite <- zq_0; apply zq_lt; lia). rewrite L.
    destruct (Qceq_b (zq n) 0) eqn:E; auto. apply Qceq_b_iff in E. rewrite <- zq_0 in E. apply zq_inj in E. lia.
Qed.

Lemma sum_count : forall A (l : list A) F, lenZ l = 0 -> sum_over l F = 0%Qc.
Proof. intros A [|x l] F H; [reflexivity|]. rewrite lenZ_cons in H. pose proof (lenZ_nonneg A l). lia. Qed.

(** ** A fresh ensemble *)

Lemma fresh_lin : forall asrt per var roi shape n0 n1 n2 k0 k1 k2 s c D, dims3 per roi shape n0 n1 n2 k0 k1 k2 ->
  lin vecE (ixE k0 k1 k2) (before asrt s per var roi k0 k1 k2) (okS s per var roi k0 k1 k2) (fun e => add asrt e c) (Ok D) ->
  exists e, fresh asrt roi per var c = Ok e /\ okS s per var roi k0 k1 k2 e /\ roi_shaped roi e /\
    forall r, pixel roi r -> 0 <= r < k0 * k1 * k2 /\ first_at e r = D (C_first, r) /\ second_at e r = D (C_second, r) /\ norm_at e r = D (C_norm, r).
Proof.
  intros asrt per var roi shape n0 n1 n2 k0 k1 k2 s c D [HL H3 HN HK PN PK HF] H.
  destruct (ensemble_ok asrt roi per var k0 k1 k2) as (e0 & E0 & O0 & V0); auto; try lia.
  destruct (H e0) as (e & E & O & V).
  { destruct O0 as [O0 S0]. split; auto. intros _. unfold unlocked. rewrite S0, orb_true_r. reflexivity. }
  exists e. unfold fresh. rewrite E0, bind_Ok. split; auto. split; auto. split; [eapply ok_shaped; eauto|].
  intros r Hr. unfold pixel in Hr. rewrite (shape3_prod _ _ _ _ HK) in Hr. split; auto.
  pose proof (V (C_first, r) Hr) as V1. pose proof (V (C_second, r) Hr) as V2. pose proof (V (C_norm, r) Hr) as V3.
  rewrite V0 in V1, V2, V3 by exact Hr. rewrite Qcplus_0_l in V1, V2, V3. auto.
Qed.

(** ** Which pairs are counted *)

Lemma pairs_In : forall per shape d p q, In (p, q) (pairs per shape d) <->
  pixel shape p /\ pixel shape q /\ movedb per shape (coords shape p) d (coords shape q) = true.
Proof.
  intros. unfold pairs, pixels, pixel. rewrite filter_In, in_prod_iff, !zrange_In. cbn [fst snd]. tauto.
Qed.

Lemma filter_ext_in' : forall A (f g : A -> bool) l, (forall x, In x l -> f x = g x) -> filter f l = filter g l.
Proof. intros. apply filter_ext_in. auto. Qed.

Lemma seen_nonper : forall shape fm gm d, filter (seen shape fm gm d) (pairs false shape d) = filter (unmasked fm gm) (pairs false shape d).
Proof.
  intros. apply filter_ext_in'. intros [p q] H. apply pairs_In in H. destruct H as (_ & _ & M). unfold seen, unmasked. cbn [fst snd].
  rewrite M. cbn [negb]. rewrite orb_false_r. reflexivity.
Qed.

Lemma filter_all : forall A (f : A -> bool) l, (forall x, In x l -> f x = true) -> filter f l = l.
Proof.
  induction l as [|x l IH]; intros H; [reflexivity|]. cbn [filter]. rewrite H by (simpl; auto). f_equal. apply IH. intros; apply H; simpl; auto.
Qed.

Lemma seen_zeros : forall per shape n d, filter (seen shape (repeat 0 n) (repeat 0 n) d) (pairs per shape d) = pairs per shape d.
Proof. intros. apply filter_all. intros [p q] _. unfold seen. cbn [fst snd]. rewrite !zn_repeat0. reflexivity. Qed.

Lemma unmasked_zeros : forall per shape n d, filter (unmasked (repeat 0 n) (repeat 0 n)) (pairs per shape d) = pairs per shape d.
Proof. intros. apply filter_all. intros [p q] _. unfold unmasked. cbn [fst snd]. rewrite !zn_repeat0. reflexivity. Qed.

Lemma zeros_mask : forall shape, Forall (fun n => 1 <= n) shape -> is_mask shape (zeros shape).
Proof.
  intros shape HP. split.
  - split; [reflexivity|]. unfold zeros. cbn [i_vals]. rewrite repeat_lenZ. 
    assert (P0 : Forall (fun n => 0 <= n) shape) by (eapply Forall_impl; [|exact HP]; intros; simpl in *; lia).
    apply zprod_nonneg in P0. lia.
  - intros x Hx. unfold zeros in Hx. cbn [i_vals] in Hx. apply repeat_spec in Hx. auto.
Qed.

(** Opposite offsets. *)
Lemma movedb_opp : forall per shape a d b, Forall (fun n => 1 <= n) shape ->
  inside shape a -> inside shape b -> movedb per shape a (opposite d) b = movedb per shape b d a.
Proof.
  intros per. induction shape as [|n shape IH]; intros [|x a] [|t d] [|y b] HP Ha Hb; cbn [movedb opposite map]; auto.
  inversion HP as [|? ? P1 P2]; subst. destruct Ha as [A1 A2]. destruct Hb as [B1 B2].
  fold (opposite d). rewrite IH by auto. f_equal. destruct per.
  - destruct (Z.eqb_spec y ((x + - t) mod n)) as [E|E]; destruct (Z.eqb_spec x ((y + t) mod n)) as [E'|E']; auto; exfalso.
    + apply E'. rewrite E, Zplus_mod_idemp_l. replace (x + - t + t) with x by lia. rewrite Z.mod_small; auto.
    + apply E. rewrite E', Zplus_mod_idemp_l. replace (y + t + - t) with y by lia. rewrite Z.mod_small; auto.
  - destruct (Z.eqb_spec y (x + - t)); destruct (Z.eqb_spec x (y + t)); auto; lia.
Qed.

Lemma sum_pairs_opp : forall per shape d T, Forall (fun n => 1 <= n) shape ->
  sum_over (pairs per shape (opposite d)) T = sum_over (pairs per shape d) (fun pq => T (snd pq, fst pq)).
Proof.
  intros per shape d T HP. unfold pairs. rewrite !sum_filter, !sum_prod. rewrite sum_swap. apply sum_ext. intros q Hq. apply sum_ext. intros p Hp.
  unfold pixels in *. apply zrange_In in Hp. apply zrange_In in Hq. cbn [fst snd].
  rewrite movedb_opp; auto; apply coords_inside; auto; eapply Forall_impl; try exact HP; intros; simpl in *; lia.
Qed.

(** Offset zero. *)
Lemma movedb_zero : forall per shape d a b, Forall (fun n => 1 <= n) shape -> zero_offset d -> length d = length shape ->
  inside shape a -> inside shape b -> (movedb per shape a d b = true <-> a = b).
Proof.
  intros per. induction shape as [|n shape IH]; intros [|t d] [|x a] [|y b] HP HZ HL Ha Hb; cbn [movedb length] in *; try discriminate; try contradiction; try tauto.
  inversion HP as [|? ? P1 P2]; subst. destruct Ha as [A1 A2]. destruct Hb as [B1 B2].
  assert (t = 0) by (apply HZ; simpl; auto). subst t. rewrite andb_true_iff, IH; auto; [|intros t Ht; apply HZ; simpl; auto].
  rewrite Z.add_0_r. replace ((if per then y =? x mod n else y =? x)) with (y =? x) by (destruct per; rewrite ?Z.mod_small by lia; auto).
  rewrite Z.eqb_eq. split; [intros [-> ->]; auto|intros E; injection E; auto].
Qed.

Lemma sum_pairs_zero : forall per shape d T, Forall (fun n => 1 <= n) shape -> zero_offset d -> length d = length shape ->
  sum_over (pairs per shape d) T = sum_over (pixels shape) (fun p => T (p, p)).
Proof.
  intros per shape d T HP HZ HL. unfold pairs. rewrite sum_filter, sum_prod. apply sum_ext. intros p Hp. cbn [fst snd].
  apply (sum_single (pixels shape) (fun y => movedb per shape (coords shape p) d (coords shape y)) (fun y => T (p, y)) p); auto.
  - apply zrange_NoDup.
  - intros q Hq. unfold pixels in *. apply zrange_In in Hp. apply zrange_In in Hq.
    assert (P0 : Forall (fun n => 0 < n) shape) by (eapply Forall_impl; try exact HP; intros; simpl in *; lia).
    rewrite movedb_zero; auto; try (apply coords_inside; auto). split; [|intros ->; auto].
    intros E. symmetry. eapply coords_inj; eauto.
Qed.

(** ** Exact outcomes, for both periodicities and any masks *)

Section Exact.
Variables (asrt per var : bool) (roi shape : list Z).
Hypothesis HS : shapes per roi shape.

Notation SEEN fm gm r := (filter (seen shape (i_vals fm) (i_vals gm) (offset roi r)) (pairs per shape (offset roi r))).

Lemma S2_exact : forall f g fm gm, is_image shape f -> is_image shape g -> is_mask shape fm -> is_mask shape gm ->
  exists e, fresh asrt roi per var (CallS2 f g (Some (fm, gm))) = Ok e /\ roi_shaped roi e /\
    forall r, pixel roi r -> let l := SEEN fm gm r in
      first_at e r = sum_over l (fun pq => qn (i_vals f) (fst pq) * qn (i_vals g) (snd pq))%Qc /\
      norm_at e r = zq (lenZ l) /\ result_at e r = Exact (quotient (first_at e r) (norm_at e r)).
Proof.
  intros f g fm gm Hf Hg Hfm Hgm. destruct (shapes_dims3 _ _ _ HS) as (n0 & n1 & n2 & k0 & k1 & k2 & HD).
  destruct (fresh_lin asrt per var roi shape n0 n1 n2 k0 k1 k2 S_S2 (CallS2 f g (Some (fm, gm))) _ HD (S2_lin asrt per var roi shape n0 n1 n2 k0 k1 k2 HD f g fm gm Hf Hg Hfm Hgm))
    as (e & E & O & SH & V).
  exists e. split; auto. split; auto. intros r Hr. destruct (V r Hr) as (Hr' & V1 & V2 & V3). cbv zeta. unfold tot3 in V1, V3. cbn [fst snd] in V1, V3. rewrite sum_one in V3.
  split; auto. split; auto. rewrite (result_at_eq _ _ _ _ _ _ _ _ _ O Hr'). cbv zeta. f_equal. rewrite V3. apply safe_count; [apply lenZ_nonneg|].
  intros H0. rewrite V1. apply sum_count. auto.
Qed.

Lemma C2_exact : forall f g fm gm, is_image shape f -> is_image shape g -> is_mask shape fm -> is_mask shape gm ->
  exists e, fresh asrt roi per var (CallC2 f g (Some (fm, gm))) = Ok e /\ roi_shaped roi e /\
    forall r, pixel roi r -> let l := SEEN fm gm r in
      first_at e r = zq (lenZ (filter (same_label (i_vals f) (i_vals g)) l)) /\
      norm_at e r = zq (lenZ l) /\ result_at e r = Exact (quotient (first_at e r) (norm_at e r)).
Proof.
  intros f g fm gm Hf Hg Hfm Hgm. destruct (shapes_dims3 _ _ _ HS) as (n0 & n1 & n2 & k0 & k1 & k2 & HD).
  destruct (fresh_lin asrt per var roi shape n0 n1 n2 k0 k1 k2 S_C2 (CallC2 f g (Some (fm, gm))) _ HD (C2_lin asrt per var roi shape n0 n1 n2 k0 k1 k2 HD f g fm gm Hf Hg Hfm Hgm))
    as (e & E & O & SH & V).
  exists e. split; auto. split; auto. intros r Hr. destruct (V r Hr) as (Hr' & V1 & V2 & V3). cbv zeta. unfold tot3 in V1, V3. cbn [fst snd] in V1, V3. rewrite sum_one in V3.
  rewrite <- (sum_filter _ (same_label (i_vals f) (i_vals g)) _ (fun _ => 1%Qc)), sum_one in V1.
  split; auto. split; auto. rewrite (result_at_eq _ _ _ _ _ _ _ _ _ O Hr'). cbv zeta. f_equal. rewrite V3. apply safe_count; [apply lenZ_nonneg|].
  intros H0. rewrite V1. destruct (SEEN fm gm r) as [|x l]; [apply zq_0|]. rewrite lenZ_cons in H0. pose proof (lenZ_nonneg _ l). lia.
Qed.

Lemma W2_exact : forall w g gm, is_image shape w -> is_image shape g -> is_mask shape gm ->
  exists e, fresh asrt roi per var (CallW2 w g (Some gm)) = Ok e /\ roi_shaped roi e /\
    forall r, pixel roi r -> let l := filter (seen shape [] (i_vals gm) (offset roi r)) (pairs per shape (offset roi r)) in
      first_at e r = sum_over l (fun pq => qn (i_vals w) (fst pq) * qn (i_vals g) (snd pq))%Qc /\
      norm_at e r = sum_over l (fun pq => qn (i_vals w) (fst pq)) /\
      ((0 < norm_at e r)%Qc -> result_at e r = Exact (first_at e r / norm_at e r)%Qc).
Proof.
  intros f g gm Hf Hg Hgm. destruct (shapes_dims3 _ _ _ HS) as (n0 & n1 & n2 & k0 & k1 & k2 & HD).
  destruct (fresh_lin asrt per var roi shape n0 n1 n2 k0 k1 k2 S_W2 (CallW2 f g (Some gm)) _ HD (W2_lin asrt per var roi shape n0 n1 n2 k0 k1 k2 HD f g gm Hf Hg Hgm))
    as (e & E & O & SH & V).
  exists e. split; auto. split; auto. intros r Hr. destruct (V r Hr) as (Hr' & V1 & V2 & V3). cbv zeta. unfold tot3 in V1, V3. cbn [fst snd] in V1, V3.
  split; auto. split; auto. intros HN. rewrite (result_at_eq _ _ _ _ _ _ _ _ _ O Hr'). cbv zeta. f_equal. unfold safe. apply Qclt_b_iff in HN. rewrite HN. reflexivity.
Qed.

Lemma sq_nonneg : forall x : Qc, (0 <= x * x)%Qc.
Proof.
  intros x. unfold Qcle. cbn [this Qcmult Q2Qc]. rewrite !Qred_correct. unfold Qle, Qmult. destruct (this x) as [a b]. cbn [Qnum Qden]. rewrite Z.mul_0_l, Z.mul_1_r. apply Z.square_nonneg.
Qed.

Lemma quotient_nonneg : forall s n, (0 <= s)%Qc -> 0 <= n -> (0 <= quotient s (zq n))%Qc.
Proof.
  intros s n Hs Hn. unfold quotient. destruct (Qceq_b (zq n) 0); [apply Qcle_refl|]. unfold Qcdiv. rewrite <- (Qcmult_0_l (/ zq n)).
  apply Qcmult_le_compat_r; auto. unfold Qcle. cbn [this Qcinv Q2Qc]. rewrite !Qred_correct. apply Qinv_le_0_compat. pose proof (zq_nonneg n Hn) as H0. unfold Qcle in H0. cbn [this Q2Qc] in H0. rewrite Qred_correct in H0. exact H0.
Qed.

Lemma hh_exact : forall f fm, is_image shape f -> is_mask shape fm ->
  exists e, fresh asrt roi per var (CallHH f (Some fm)) = Ok e /\ roi_shaped roi e /\
    forall r, pixel roi r -> let l := SEEN fm fm r in
      first_at e r = sum_over l (sqdiff (i_vals f)) /\
      second_at e r = (if var then sum_over l (fun pq => sqdiff (i_vals f) pq * sqdiff (i_vals f) pq)%Qc else 0%Qc) /\
      norm_at e r = zq (lenZ l) /\ result_at e r = Root (quotient (first_at e r) (norm_at e r)).
Proof.
  intros f fm Hf Hfm. destruct (shapes_dims3 _ _ _ HS) as (n0 & n1 & n2 & k0 & k1 & k2 & HD).
  destruct (fresh_lin asrt per var roi shape n0 n1 n2 k0 k1 k2 S_heightheight (CallHH f (Some fm)) _ HD (hh_lin asrt per var roi shape n0 n1 n2 k0 k1 k2 HD f fm Hf Hfm))
    as (e & E & O & SH & V).
  exists e. split; auto. split; auto. intros r Hr. destruct (V r Hr) as (Hr' & V1 & V2 & V3). cbv zeta. unfold tot3 in V1, V2, V3. cbn [fst snd] in V1, V2, V3. rewrite sum_one in V3.
  split; auto. split. { rewrite V2. destruct var; auto. apply sum_zero. }
  split; auto. rewrite (result_at_eq _ _ _ _ _ _ _ _ _ O Hr'). cbv zeta. rewrite V3. rewrite safe_count; [|apply lenZ_nonneg|intros H0; rewrite V1; apply sum_count; auto].
  unfold root. destruct (Qclt_b _ 0) eqn:EL; auto. apply Qclt_b_iff in EL. exfalso. apply Qclt_not_le in EL. apply EL.
  apply quotient_nonneg; [|apply lenZ_nonneg]. rewrite V1. apply sum_nonneg. intros. apply sq_nonneg.
Qed.
End Exact.

(** ** The statements *)

Lemma shape_pos : forall per roi shape, shapes per roi shape -> Forall (fun n => 1 <= n) shape.
Proof. intros per roi shape H. apply H. Qed.

Lemma none_S2 : forall asrt roi per var shape f g, i_shape f = shape ->
  fresh asrt roi per var (CallS2 f g None) = fresh asrt roi per var (CallS2 f g (Some (zeros shape, zeros shape))).
Proof. intros asrt roi per var shape f g <-. reflexivity. Qed.
Lemma none_C2 : forall asrt roi per var shape f g, i_shape f = shape ->
  fresh asrt roi per var (CallC2 f g None) = fresh asrt roi per var (CallC2 f g (Some (zeros shape, zeros shape))).
Proof. intros asrt roi per var shape f g <-. reflexivity. Qed.
Lemma none_W2 : forall asrt roi per var shape f g, i_shape f = shape ->
  fresh asrt roi per var (CallW2 f g None) = fresh asrt roi per var (CallW2 f g (Some (zeros shape))).
Proof. intros asrt roi per var shape f g <-. reflexivity. Qed.
Lemma none_HH : forall asrt roi per var shape f, i_shape f = shape ->
  fresh asrt roi per var (CallHH f None) = fresh asrt roi per var (CallHH f (Some (zeros shape))).
Proof. intros asrt roi per var shape f <-. reflexivity. Qed.

(** C34 *)
Lemma S2_masked : forall asrt var roi shape f g fm gm, shapes false roi shape ->
  is_image shape f -> is_image shape g -> is_mask shape fm -> is_mask shape gm ->
  exists e, fresh asrt roi false var (CallS2 f g (Some (fm, gm))) = Ok e /\ roi_shaped roi e /\
    forall r, pixel roi r ->
      let l := filter (unmasked (i_vals fm) (i_vals gm)) (pairs false shape (offset roi r)) in
      first_at e r = sum_over l (fun pq => qn (i_vals f) (fst pq) * qn (i_vals g) (snd pq))%Qc /\
      norm_at e r = zq (lenZ l) /\ result_at e r = Exact (quotient (first_at e r) (norm_at e r)).
Proof.
  intros asrt var roi shape f g fm gm HS Hf Hg Hfm Hgm. destruct (S2_exact asrt false var roi shape HS f g fm gm Hf Hg Hfm Hgm) as (e & E & SH & V).
  exists e. split; auto. split; auto. intros r Hr. specialize (V r Hr). rewrite seen_nonper in V. exact V.
Qed.

(** Number of pairs of a periodic image. *)
Lemma pairs_periodic_count : forall roi shape r, shapes true roi shape -> pixel roi r ->
  lenZ (pairs true shape (offset roi r)) = zprod shape.
Proof.
  intros roi shape r HS Hr. destruct (shapes_dims3 _ _ _ HS) as (n0 & n1 & n2 & k0 & k1 & k2 & [HL H3 HN HK PN PK HF]).
  unfold pixel in Hr. rewrite (shape3_prod _ _ _ _ HK) in Hr. apply zq_inj. rewrite <- sum_one.
  rewrite (sum_pairs true shape roi n0 n1 n2 k0 k1 k2) by (auto; lia). cbn [partner]. rewrite (shape3_prod _ _ _ _ HN).
  unfold partner, dec. rewrite sum_one. f_equal. unfold lenZ. rewrite zrange_length. nia.
Qed.

(** C35 *)
Lemma S2_periodic : forall asrt var roi shape f g, shapes true roi shape -> is_image shape f -> is_image shape g ->
  exists e, fresh asrt roi true var (CallS2 f g None) = Ok e /\ roi_shaped roi e /\
    forall r, pixel roi r ->
      first_at e r = sum_over (pairs true shape (offset roi r)) (fun pq => qn (i_vals f) (fst pq) * qn (i_vals g) (snd pq))%Qc /\
      norm_at e r = zq (zprod shape) /\ result_at e r = Exact (first_at e r / zq (zprod shape))%Qc.
Proof.
  intros asrt var roi shape f g HS Hf Hg. pose proof (zeros_mask shape (shape_pos _ _ _ HS)) as HZ.
  destruct (S2_exact asrt true var roi shape HS f g (zeros shape) (zeros shape) Hf Hg HZ HZ) as (e & E & SH & V).
  exists e. rewrite (none_S2 asrt roi true var shape f g) by apply Hf. split; auto. split; auto. intros r Hr. specialize (V r Hr). cbv zeta in V.
  unfold zeros in V. cbn [i_vals] in V. rewrite seen_zeros in V. destruct V as (V1 & V2 & V3). rewrite (pairs_periodic_count roi) in V2 by auto.
  split; auto. split; auto. rewrite V3, V2. f_equal. unfold quotient. destruct (Qceq_b _ _) eqn:EQ; auto. exfalso. apply Qceq_b_iff in EQ.
  rewrite <- zq_0 in EQ. apply zq_inj in EQ. pose proof (zprod_pos shape).
  assert (Forall (fun n => 0 < n) shape) by (eapply Forall_impl; [|exact (shape_pos _ _ _ HS)]; intros; simpl in *; lia). specialize (H H0). lia.
Qed.

(** C36 *)
Lemma same_qn : forall shape m f f' p, same_unmasked shape m f f' -> pixel shape p -> (zn (i_vals m) p =? 0) = true ->
  qn (i_vals f) p = qn (i_vals f') p.
Proof.
  intros shape m f f' p (_ & _ & _ & H) Hp E. specialize (H p Hp). unfold qn. rewrite !nth_default_eq || idtac.
  assert (E' : nth_error (i_vals f) (Z.to_nat p) = nth_error (i_vals f') (Z.to_nat p)) by (apply H; lia).
  rewrite <- !nth_default_eq. unfold nth_default. rewrite E'. reflexivity.
Qed.
Lemma same_zn : forall shape m f f' p, same_unmasked shape m f f' -> pixel shape p -> (zn (i_vals m) p =? 0) = true ->
  zn (i_vals f) p = zn (i_vals f') p.
Proof.
  intros shape m f f' p (_ & _ & _ & H) Hp E. specialize (H p Hp). unfold zn.
  assert (E' : nth_error (i_vals f) (Z.to_nat p) = nth_error (i_vals f') (Z.to_nat p)) by (apply H; lia).
  rewrite <- !nth_default_eq. unfold nth_default. rewrite E'. reflexivity.
Qed.

Lemma list_ext_qn : forall a b : list Qc, lenZ a = lenZ b -> (forall i, 0 <= i < lenZ a -> qn a i = qn b i) -> a = b.
Proof.
  intros a b HL H. apply (nth_ext a b 0%Qc 0%Qc); [unfold lenZ in HL; lia|]. intros n Hn. specialize (H (Z.of_nat n)). unfold qn in H. rewrite Nat2Z.id in H.
  apply H. unfold lenZ. lia.
Qed.

Lemma lin_same : forall asrt per var roi shape n0 n1 n2 k0 k1 k2 s c c' D D', dims3 per roi shape n0 n1 n2 k0 k1 k2 ->
  lin vecE (ixE k0 k1 k2) (before asrt s per var roi k0 k1 k2) (okS s per var roi k0 k1 k2) (fun e => add asrt e c) (Ok D) ->
  lin vecE (ixE k0 k1 k2) (before asrt s per var roi k0 k1 k2) (okS s per var roi k0 k1 k2) (fun e => add asrt e c') (Ok D') ->
  (forall i, ixE k0 k1 k2 i -> D i = D' i) ->
  same_data (fresh asrt roi per var c) (fresh asrt roi per var c').
Proof.
  intros asrt per var roi shape n0 n1 n2 k0 k1 k2 s c c' D D' HD H H' HE.
  destruct (fresh_lin _ _ _ _ _ _ _ _ _ _ _ _ _ _ HD H) as (e & E & O & SH & V). destruct (fresh_lin _ _ _ _ _ _ _ _ _ _ _ _ _ _ HD H') as (e' & E' & O' & SH' & V').
  exists e, e'. split; auto. split; auto. destruct SH as (S1 & S2 & S3 & _). destruct SH' as (S1' & S2' & S3' & _).
  assert (A : data_first e = data_first e' /\ data_second e = data_second e' /\ norm e = norm e').
  { split; [|split]; (apply list_ext_qn; [congruence|]; intros i Hi; rewrite ?S1, ?S2, ?S3 in Hi; destruct (V i Hi) as (Hi' & A1 & A2 & A3); destruct (V' i Hi) as (_ & B1 & B2 & B3)).
    - unfold first_at in A1, B1. rewrite A1, B1. apply HE. exact Hi'.
    - unfold second_at in A2, B2. rewrite A2, B2. apply HE. exact Hi'.
    - unfold norm_at in A3, B3. rewrite A3, B3. apply HE. exact Hi'. }
  destruct A as (A1 & A2 & A3). split; auto. split; auto. split; auto. unfold result. unfold data_first in A1. unfold norm in A3. rewrite A1, A3.
  destruct O as [_ ->]. destruct O' as [_ ->]. reflexivity.
Qed.

Lemma tot3_ext : forall per roi shape fm gm T1 T2 TN T1' T2' TN' i,
  (forall p q, In (p, q) (filter (seen shape fm gm (offset roi (snd i))) (pairs per shape (offset roi (snd i)))) -> T1 (p, q) = T1' (p, q) /\ T2 (p, q) = T2' (p, q) /\ TN (p, q) = TN' (p, q)) ->
  tot3 per roi shape fm gm T1 T2 TN i = tot3 per roi shape fm gm T1' T2' TN' i.
Proof.
  intros per roi shape fm gm T1 T2 TN T1' T2' TN' [c r] H. unfold tot3. cbn [fst snd] in *. apply sum_ext. intros [p q] Hpq. destruct (H p q Hpq) as (A & B & C). destruct c; auto.
Qed.

Lemma seen_In : forall per shape fm gm d p q, In (p, q) (filter (seen shape fm gm d) (pairs per shape d)) ->
  pixel shape p /\ pixel shape q /\ (zn fm p =? 0) = true /\ (per = false -> (zn gm q =? 0) = true).
Proof.
  intros per shape fm gm d p q H. apply filter_In in H. destruct H as [H1 H2]. apply pairs_In in H1. destruct H1 as (P & Q & M).
  unfold seen in H2. cbn [fst snd] in H2. apply andb_true_iff in H2. destruct H2 as [F G]. split; auto. split; auto. split; auto.
  intros ->. rewrite M in G. cbn [negb] in G. rewrite orb_false_r in G. auto.
Qed.

Section Ignore.
Variables (asrt per var : bool) (roi shape : list Z).
Hypothesis HS : shapes per roi shape.

Lemma same_img : forall A m (f f' : img A), same_unmasked shape m f f' -> is_image shape f /\ is_image shape f' /\ is_mask shape m.
Proof. intros A m f f' (B & C & D & _). auto. Qed.

Lemma S2_ignores : forall f f' g g' fm gm, same_unmasked shape fm f f' -> same_unmasked shape gm g g' -> per = false \/ g = g' ->
  same_data (fresh asrt roi per var (CallS2 f g (Some (fm, gm)))) (fresh asrt roi per var (CallS2 f' g' (Some (fm, gm)))).
Proof.
  intros f f' g g' fm gm Hf Hg HP. destruct (shapes_dims3 _ _ _ HS) as (n0 & n1 & n2 & k0 & k1 & k2 & HD).
  destruct (same_img _ _ _ _ Hf) as (F1 & F2 & F3). destruct (same_img _ _ _ _ Hg) as (G1 & G2 & G3).
  eapply (lin_same asrt per var roi shape n0 n1 n2 k0 k1 k2 S_S2 (CallS2 f g (Some (fm, gm))) (CallS2 f' g' (Some (fm, gm))) _ _ HD);
    [apply S2_lin with (1 := HD); auto|apply S2_lin with (1 := HD); auto|].
  intros i _. apply tot3_ext. intros p q H. apply seen_In in H. destruct H as (P & Q & M & N). split; auto. cbn [fst snd].
  rewrite (same_qn _ _ _ _ _ Hf P M). f_equal. destruct HP as [EP| ->]; auto. apply (same_qn _ _ _ _ _ Hg Q (N EP)).
Qed.

Lemma C2_ignores : forall f f' g g' fm gm, same_unmasked shape fm f f' -> same_unmasked shape gm g g' -> per = false \/ g = g' ->
  same_data (fresh asrt roi per var (CallC2 f g (Some (fm, gm)))) (fresh asrt roi per var (CallC2 f' g' (Some (fm, gm)))).
Proof.
  intros f f' g g' fm gm Hf Hg HP. destruct (shapes_dims3 _ _ _ HS) as (n0 & n1 & n2 & k0 & k1 & k2 & HD).
  destruct (same_img _ _ _ _ Hf) as (F1 & F2 & F3). destruct (same_img _ _ _ _ Hg) as (G1 & G2 & G3).
  eapply (lin_same asrt per var roi shape n0 n1 n2 k0 k1 k2 S_C2 (CallC2 f g (Some (fm, gm))) (CallC2 f' g' (Some (fm, gm))) _ _ HD);
    [apply C2_lin with (1 := HD); auto|apply C2_lin with (1 := HD); auto|].
  intros i _. apply tot3_ext. intros p q H. apply seen_In in H. destruct H as (P & Q & M & N). split; auto. unfold same_label. cbn [fst snd].
  rewrite (same_zn _ _ _ _ _ Hf P M). replace (zn (i_vals g) q) with (zn (i_vals g') q); auto. destruct HP as [EP| ->]; auto. symmetry. apply (same_zn _ _ _ _ _ Hg Q (N EP)).
Qed.

Lemma W2_ignores : forall w g g' gm, is_image shape w -> same_unmasked shape gm g g' -> per = false ->
  same_data (fresh asrt roi per var (CallW2 w g (Some gm))) (fresh asrt roi per var (CallW2 w g' (Some gm))).
Proof.
  intros w g g' gm Hw Hg HP. destruct (shapes_dims3 _ _ _ HS) as (n0 & n1 & n2 & k0 & k1 & k2 & HD).
  destruct (same_img _ _ _ _ Hg) as (G1 & G2 & G3).
  eapply (lin_same asrt per var roi shape n0 n1 n2 k0 k1 k2 S_W2 (CallW2 w g (Some gm)) (CallW2 w g' (Some gm)) _ _ HD);
    [apply W2_lin with (1 := HD); auto|apply W2_lin with (1 := HD); auto|].
  intros i _. apply tot3_ext. intros p q H. apply seen_In in H. destruct H as (P & Q & M & N). split; auto. cbn [fst snd].
  f_equal. apply (same_qn _ _ _ _ _ Hg Q (N HP)).
Qed.

Lemma hh_ignores : forall f f' fm, same_unmasked shape fm f f' -> per = false ->
  same_data (fresh asrt roi per var (CallHH f (Some fm))) (fresh asrt roi per var (CallHH f' (Some fm))).
Proof.
  intros f f' fm Hf HP. destruct (shapes_dims3 _ _ _ HS) as (n0 & n1 & n2 & k0 & k1 & k2 & HD).
  destruct (same_img _ _ _ _ Hf) as (G1 & G2 & G3).
  eapply (lin_same asrt per var roi shape n0 n1 n2 k0 k1 k2 S_heightheight (CallHH f (Some fm)) (CallHH f' (Some fm)) _ _ HD);
    [apply hh_lin with (1 := HD); auto|apply hh_lin with (1 := HD); auto|].
  intros i _. apply tot3_ext. intros p q H. apply seen_In in H. destruct H as (P & Q & M & N).
  assert (E : sqdiff (i_vals f) (p, q) = sqdiff (i_vals f') (p, q)).
  { unfold sqdiff. cbn [fst snd]. rewrite (same_qn _ _ _ _ _ Hf P M), (same_qn _ _ _ _ _ Hf Q (N HP)). reflexivity. }
  rewrite E. auto.
Qed.
End Ignore.

(** C37 *)
Lemma C2_masked : forall asrt var roi shape f g fm gm, shapes false roi shape ->
  is_image shape f -> is_image shape g -> is_mask shape fm -> is_mask shape gm ->
  exists e, fresh asrt roi false var (CallC2 f g (Some (fm, gm))) = Ok e /\ roi_shaped roi e /\
    forall r, pixel roi r ->
      let l := filter (unmasked (i_vals fm) (i_vals gm)) (pairs false shape (offset roi r)) in
      first_at e r = zq (lenZ (filter (same_label (i_vals f) (i_vals g)) l)) /\
      norm_at e r = zq (lenZ l) /\ result_at e r = Exact (quotient (first_at e r) (norm_at e r)).
Proof.
  intros asrt var roi shape f g fm gm HS Hf Hg Hfm Hgm. destruct (C2_exact asrt false var roi shape HS f g fm gm Hf Hg Hfm Hgm) as (e & E & SH & V).
  exists e. split; auto. split; auto. intros r Hr. specialize (V r Hr). rewrite seen_nonper in V. exact V.
Qed.

Lemma C2_periodic : forall asrt var roi shape f g, shapes true roi shape -> is_image shape f -> is_image shape g ->
  exists e, fresh asrt roi true var (CallC2 f g None) = Ok e /\ roi_shaped roi e /\
    forall r, pixel roi r ->
      first_at e r = zq (lenZ (filter (same_label (i_vals f) (i_vals g)) (pairs true shape (offset roi r)))) /\
      norm_at e r = zq (zprod shape) /\ result_at e r = Exact (quotient (first_at e r) (norm_at e r)).
Proof.
  intros asrt var roi shape f g HS Hf Hg. pose proof (zeros_mask shape (shape_pos _ _ _ HS)) as HZ.
  destruct (C2_exact asrt true var roi shape HS f g (zeros shape) (zeros shape) Hf Hg HZ HZ) as (e & E & SH & V).
  exists e. rewrite (none_C2 asrt roi true var shape f g) by apply Hf. split; auto. split; auto. intros r Hr. specialize (V r Hr). cbv zeta in V.
  unfold zeros in V. cbn [i_vals] in V. rewrite seen_zeros in V. rewrite (pairs_periodic_count roi) in V by auto. exact V.
Qed.

(** C38 *)
Lemma seen_nonper1 : forall shape gm d, filter (seen shape [] gm d) (pairs false shape d) = filter (fun pq => zn gm (snd pq) =? 0) (pairs false shape d).
Proof.
  intros. rewrite seen_nonper. apply filter_ext_in'. intros [p q] _. unfold unmasked. cbn [fst snd].
  replace (zn [] p =? 0) with true by (unfold zn; destruct (Z.to_nat p); reflexivity). reflexivity.
Qed.

Lemma W2_masked : forall asrt var roi shape w f fm, shapes false roi shape ->
  is_image shape w -> is_image shape f -> is_mask shape fm ->
  exists e, fresh asrt roi false var (CallW2 w f (Some fm)) = Ok e /\ roi_shaped roi e /\
    forall r, pixel roi r ->
      let l := filter (fun pq => zn (i_vals fm) (snd pq) =? 0) (pairs false shape (offset roi r)) in
      first_at e r = sum_over l (fun pq => qn (i_vals w) (fst pq) * qn (i_vals f) (snd pq))%Qc /\
      norm_at e r = sum_over l (fun pq => qn (i_vals w) (fst pq)) /\
      ((0 < norm_at e r)%Qc -> result_at e r = Exact (first_at e r / norm_at e r)%Qc).
Proof.
  intros asrt var roi shape w f fm HS Hw Hf Hfm. destruct (W2_exact asrt false var roi shape HS w f fm Hw Hf Hfm) as (e & E & SH & V).
  exists e. split; auto. split; auto. intros r Hr. specialize (V r Hr). rewrite seen_nonper1 in V. exact V.
Qed.

Lemma W2_periodic : forall asrt var roi shape w f, shapes true roi shape -> is_image shape w -> is_image shape f ->
  exists e, fresh asrt roi true var (CallW2 w f None) = Ok e /\ roi_shaped roi e /\
    forall r, pixel roi r ->
      first_at e r = sum_over (pairs true shape (offset roi r)) (fun pq => qn (i_vals w) (fst pq) * qn (i_vals f) (snd pq))%Qc /\
      norm_at e r = sum_over (pairs true shape (offset roi r)) (fun pq => qn (i_vals w) (fst pq)) /\
      ((0 < norm_at e r)%Qc -> result_at e r = Exact (first_at e r / norm_at e r)%Qc).
Proof.
  intros asrt var roi shape w f HS Hw Hf. pose proof (zeros_mask shape (shape_pos _ _ _ HS)) as HZ.
  destruct (W2_exact asrt true var roi shape HS w f (zeros shape) Hw Hf HZ) as (e & E & SH & V).
  exists e. rewrite (none_W2 asrt roi true var shape w f) by apply Hw. split; auto. split; auto. intros r Hr. specialize (V r Hr). cbv zeta in V.
  rewrite filter_all in V; auto. intros [p q] _. unfold seen, zeros. cbn [fst snd i_vals]. rewrite zn_repeat0.
  replace (zn [] p =? 0) with true by (unfold zn; destruct (Z.to_nat p); reflexivity). reflexivity.
Qed.

(** C39 *)
Lemma hh_masked : forall asrt var roi shape f fm, shapes false roi shape -> is_image shape f -> is_mask shape fm ->
  exists e, fresh asrt roi false var (CallHH f (Some fm)) = Ok e /\ roi_shaped roi e /\
    forall r, pixel roi r ->
      let l := filter (unmasked (i_vals fm) (i_vals fm)) (pairs false shape (offset roi r)) in
      first_at e r = sum_over l (sqdiff (i_vals f)) /\ norm_at e r = zq (lenZ l) /\
      result_at e r = Root (quotient (first_at e r) (norm_at e r)) /\
      (zero_offset (offset roi r) -> result_at e r = Root 0%Qc) /\
      (forall r', pixel roi r' -> offset roi r' = opposite (offset roi r) ->
         first_at e r' = first_at e r /\ norm_at e r' = norm_at e r /\ result_at e r' = result_at e r).
Proof.
  intros asrt var roi shape f fm HS Hf Hfm. destruct (hh_exact asrt false var roi shape HS f fm Hf Hfm) as (e & E & SH & V).
  exists e. split; auto. split; auto. intros r Hr. pose proof (V r Hr) as Vr. cbv zeta in *. rewrite seen_nonper in Vr. destruct Vr as (V1 & V2 & V3 & V4).
  split; auto. split; auto. split; auto. split.
  - intros HZ. rewrite V4. f_equal. unfold quotient. destruct (Qceq_b (norm_at e r) 0); auto. rewrite V1, sum_filter.
    rewrite sum_pairs_zero; auto; [|apply HS|].
    + rewrite (sum_ext _ _ _ (fun _ => 0%Qc)); [rewrite sum_zero; unfold Qcdiv; ring|]. intros p _. destruct (unmasked _ _ _); auto. unfold sqdiff. cbn [fst snd]. ring.
    + unfold offset, diff. rewrite map_length, combine_length, coords_length, anchor_length. destruct HS as (HL & _). lia.
  - intros r' Hr' Ho. pose proof (V r' Hr') as Vr'. cbv zeta in Vr'. rewrite seen_nonper in Vr'. destruct Vr' as (V1' & V2' & V3' & V4').
    assert (F : first_at e r' = first_at e r).
    { rewrite V1, V1', Ho, !sum_filter, sum_pairs_opp by apply HS. apply sum_ext. intros [p q] _. cbn [fst snd]. unfold unmasked, sqdiff. cbn [fst snd].
      rewrite andb_comm. destruct (_ && _); auto. ring. }
    assert (N : norm_at e r' = norm_at e r).
    { rewrite V3, V3', Ho, <- !sum_one, !sum_filter, sum_pairs_opp by apply HS. apply sum_ext. intros [p q] _. cbn [fst snd]. unfold unmasked. cbn [fst snd].
      rewrite andb_comm. reflexivity. }
    split; auto. split; auto. rewrite V4, V4', F, N. reflexivity.
Qed.

Lemma hh_periodic : forall asrt var roi shape f, shapes true roi shape -> is_image shape f ->
  exists e, fresh asrt roi true var (CallHH f None) = Ok e /\ roi_shaped roi e /\
    forall r, pixel roi r ->
      first_at e r = sum_over (pairs true shape (offset roi r)) (sqdiff (i_vals f)) /\ norm_at e r = zq (zprod shape) /\
      result_at e r = Root (quotient (first_at e r) (norm_at e r)) /\
      (zero_offset (offset roi r) -> result_at e r = Root 0%Qc) /\
      (forall r', pixel roi r' -> offset roi r' = opposite (offset roi r) ->
         first_at e r' = first_at e r /\ norm_at e r' = norm_at e r /\ result_at e r' = result_at e r).
Proof.
  intros asrt var roi shape f HS Hf. pose proof (zeros_mask shape (shape_pos _ _ _ HS)) as HZ.
  destruct (hh_exact asrt true var roi shape HS f (zeros shape) Hf HZ) as (e & E & SH & V).
  exists e. rewrite (none_HH asrt roi true var shape f) by apply Hf. split; auto. split; auto.
  assert (W : forall r, pixel roi r -> first_at e r = sum_over (pairs true shape (offset roi r)) (sqdiff (i_vals f)) /\ norm_at e r = zq (zprod shape) /\
      result_at e r = Root (quotient (first_at e r) (norm_at e r))).
  { intros r Hr. pose proof (V r Hr) as Vr. cbv zeta in Vr. unfold zeros in Vr. cbn [i_vals] in Vr. rewrite seen_zeros in Vr. rewrite (pairs_periodic_count roi) in Vr by auto. tauto. }
  intros r Hr. destruct (W r Hr) as (V1 & V3 & V4). split; auto. split; auto. split; auto. split.
  - intros HZ0. rewrite V4. f_equal. unfold quotient. destruct (Qceq_b (norm_at e r) 0); auto. rewrite V1.
    rewrite sum_pairs_zero; auto; [|apply HS|].
    + rewrite (sum_ext _ _ _ (fun _ => 0%Qc)); [rewrite sum_zero; unfold Qcdiv; ring|]. intros p _. unfold sqdiff. cbn [fst snd]. ring.
    + unfold offset, diff. rewrite map_length, combine_length, coords_length, anchor_length. destruct HS as (HL & _). lia.
  - intros r' Hr' Ho. destruct (W r' Hr') as (V1' & V3' & V4').
    assert (F : first_at e r' = first_at e r).
    { rewrite V1, V1', Ho, sum_pairs_opp by apply HS. apply sum_ext. intros [p q] _. unfold sqdiff. cbn [fst snd]. ring. }
    split; auto. split; [congruence|]. rewrite V4, V4', F, V3, V3'. reflexivity.
Qed.

(** C46 *)
Lemma qn_In : forall l i, 0 <= i < lenZ l -> In (qn l i) l.
Proof. intros. unfold qn. apply nth_In. unfold lenZ in *. lia. Qed.

Lemma two_phase_at : forall shape f p, is_image shape f -> two_phase f -> pixel shape p -> qn (i_vals f) p = 0%Qc \/ qn (i_vals f) p = 1%Qc.
Proof. intros shape f p [_ HL] HB Hp. apply HB. apply qn_In. rewrite HL. exact Hp. Qed.

Lemma Qc01 : (0 <= 1)%Qc. Proof. discriminate. Qed.

Lemma div_le_1 : forall s n, (0 < n)%Qc -> (s <= n)%Qc -> (s / n <= 1)%Qc.
Proof.
  intros s n Hn H. apply Qcmult_lt_0_le_reg_r with (z := n); auto. unfold Qcdiv.
  rewrite <- Qcmult_assoc, (Qcmult_comm (/ n)), Qcmult_inv_r, Qcmult_1_l, Qcmult_1_r; auto. intros ->. exact (Qclt_not_eq _ _ Hn eq_refl).
Qed.

Lemma div_mono : forall s t n, (0 < n)%Qc -> (s <= t)%Qc -> (s / n <= t / n)%Qc.
Proof.
  intros s t n Hn H. apply Qcmult_lt_0_le_reg_r with (z := n); auto. unfold Qcdiv.
  rewrite <- !Qcmult_assoc, !(Qcmult_comm (/ n)), !Qcmult_inv_r, !Qcmult_1_r; auto; intros ->; exact (Qclt_not_eq _ _ Hn eq_refl).
Qed.

Lemma quotient_le_1 : forall s n, 0 <= n -> (s <= zq n)%Qc -> (quotient s (zq n) <= 1)%Qc.
Proof.
  intros s n Hn H. unfold quotient. destruct (Qceq_b (zq n) 0) eqn:E; [exact Qc01|].
  apply div_le_1; auto. rewrite <- zq_0. apply zq_lt. destruct (Z.eq_dec n 0) as [->|]; [|lia]. rewrite zq_0 in E. discriminate.
Qed.

Lemma S2_probability : forall asrt per var roi shape f fm gm, shapes per roi shape -> is_image shape f -> two_phase f ->
  is_mask shape fm -> is_mask shape gm ->
  exists e, fresh asrt roi per var (CallS2 f f (Some (fm, gm))) = Ok e /\
    forall r, pixel roi r -> exists q, result_at e r = Exact q /\ (0 <= q)%Qc /\ (q <= 1)%Qc.
Proof.
  intros asrt per var roi shape f fm gm HS Hf HB Hfm Hgm. destruct (S2_exact asrt per var roi shape HS f f fm gm Hf Hf Hfm Hgm) as (e & E & _ & V).
  exists e. split; auto. intros r Hr. destruct (V r Hr) as (V1 & V2 & V3). rewrite V3. eexists. split; [reflexivity|].
  assert (B : forall pq, In pq (filter (seen shape (i_vals fm) (i_vals gm) (offset roi r)) (pairs per shape (offset roi r))) ->
    (0 <= qn (i_vals f) (fst pq) * qn (i_vals f) (snd pq))%Qc /\ (qn (i_vals f) (fst pq) * qn (i_vals f) (snd pq) <= 1)%Qc).
  { intros [p q] H. apply seen_In in H. destruct H as (P & Q & _). cbn [fst snd].
    destruct (two_phase_at _ _ _ Hf HB P) as [-> | ->]; destruct (two_phase_at _ _ _ Hf HB Q) as [-> | ->]; split; discriminate. }
  rewrite V2, V1. split.
  - apply quotient_nonneg; [|apply lenZ_nonneg]. apply sum_nonneg. intros. apply B. auto.
  - apply quotient_le_1; [apply lenZ_nonneg|]. rewrite <- sum_one. apply sum_le. intros. apply B. auto.
Qed.

Lemma offset_length : forall roi r, length (offset roi r) = length roi.
Proof. intros. unfold offset, diff. rewrite map_length, combine_length, coords_length, anchor_length. lia. Qed.

Lemma len_pos : forall shape, Forall (fun n => 1 <= n) shape -> 0 < zprod shape.
Proof. intros shape H. apply zprod_pos. eapply Forall_impl; [|exact H]; intros; simpl in *; lia. Qed.

Lemma S2_centre : forall asrt per var roi shape f, shapes per roi shape -> is_image shape f -> two_phase f ->
  exists e, fresh asrt roi per var (CallS2 f f None) = Ok e /\
    forall r, pixel roi r -> zero_offset (offset roi r) -> result_at e r = Exact (volume_fraction shape f).
Proof.
  intros asrt per var roi shape f HS Hf HB. pose proof (zeros_mask shape (shape_pos _ _ _ HS)) as HZ.
  destruct (S2_exact asrt per var roi shape HS f f (zeros shape) (zeros shape) Hf Hf HZ HZ) as (e & E & _ & V).
  exists e. rewrite (none_S2 asrt roi per var shape f f) by apply Hf. split; auto. intros r Hr HO. specialize (V r Hr). cbv zeta in V.
  unfold zeros in V. cbn [i_vals] in V. rewrite seen_zeros in V. destruct V as (V1 & V2 & V3).
  assert (LO : length (offset roi r) = length shape) by (rewrite offset_length; destruct HS; auto).
  rewrite <- sum_one, sum_pairs_zero in V2 by (auto; apply HS). rewrite sum_pairs_zero in V1 by (auto; apply HS). rewrite sum_one in V2.
  assert (EN : lenZ (pixels shape) = zprod shape).
  { pose proof (len_pos shape (shape_pos _ _ _ HS)). unfold pixels, lenZ. rewrite zrange_length. lia. }
  rewrite EN in V2. rewrite V3, V2, V1. f_equal. unfold quotient, volume_fraction. pose proof (len_pos shape (shape_pos _ _ _ HS)) as LP.
  destruct (Qceq_b (zq (zprod shape)) 0) eqn:EQ.
  { exfalso. apply Qceq_b_iff in EQ. rewrite <- zq_0 in EQ. apply zq_inj in EQ. lia. }
  f_equal. apply sum_ext. intros p Hp. apply zrange_In in Hp. cbn [fst snd]. destruct (two_phase_at _ _ _ Hf HB Hp) as [-> | ->]; ring.
Qed.

Lemma S2_periodic_shape : forall asrt var roi shape f, shapes true roi shape -> is_image shape f -> two_phase f ->
  exists e, fresh asrt roi true var (CallS2 f f None) = Ok e /\
    forall r r', pixel roi r -> pixel roi r' ->
      (zero_offset (offset roi r') -> exists q q', result_at e r = Exact q /\ result_at e r' = Exact q' /\ (q <= q')%Qc) /\
      (offset roi r' = opposite (offset roi r) -> result_at e r' = result_at e r).
Proof.
  intros asrt var roi shape f HS Hf HB. destruct (S2_periodic asrt var roi shape f f HS Hf Hf) as (e & E & _ & V).
  exists e. split; auto. intros r r' Hr Hr'. destruct (V r Hr) as (V1 & V2 & V3). destruct (V r' Hr') as (V1' & V2' & V3'). split.
  - intros HZ. rewrite V3, V3'. eexists. eexists. split; [reflexivity|]. split; [reflexivity|]. pose proof (len_pos shape (shape_pos _ _ _ HS)) as LP.
    apply div_mono; [rewrite <- zq_0; apply zq_lt; auto|]. rewrite V1, V1'.
    assert (LO : length (offset roi r') = length shape) by (rewrite offset_length; destruct HS; auto).
    rewrite (sum_pairs_zero true shape (offset roi r')) by (auto; apply HS).
    (* sum over pairs of f p * f q <= sum over pairs of f p = sum over pixels of f p *)
    destruct (shapes_dims3 _ _ _ HS) as (n0 & n1 & n2 & k0 & k1 & k2 & [HL H3 HN HK PN PK HF]).
    unfold pixel in Hr. rewrite (shape3_prod _ _ _ _ HK) in Hr.
    rewrite (sum_pairs true shape roi n0 n1 n2 k0 k1 k2) by (auto; lia). unfold pixels. rewrite (shape3_prod _ _ _ _ HN). apply sum_le.
    intros p Hp. apply zrange_In in Hp. destruct (partner _ _ _ _ _ _ _ _) as [q|] eqn:EP; [|discriminate EP].
    pose proof (partner_range _ _ _ _ _ _ _ _ _ PN EP) as Hq. cbn [fst snd].
    assert (Pp : pixel shape p) by (unfold pixel; rewrite (shape3_prod _ _ _ _ HN); auto). assert (Pq : pixel shape q) by (unfold pixel; rewrite (shape3_prod _ _ _ _ HN); auto).
    destruct (two_phase_at _ _ _ Hf HB Pp) as [-> | ->]; destruct (two_phase_at _ _ _ Hf HB Pq) as [-> | ->]; discriminate.
  - intros HO. rewrite V3, V3', V1, V1', HO, sum_pairs_opp by apply HS. f_equal. f_equal. apply sum_ext. intros [p q] _. cbn [fst snd]. ring.
Qed.
