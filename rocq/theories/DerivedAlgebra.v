(** * DerivedAlgebra: algebra of the two-point statistics (proofs only) *)

From Coq Require Import ZArith QArith Qcanon List Bool Lia Permutation.
From Verif Require Import Base BaseLemmas SpecCluster ClusterGeom ClusterMain Array3 Array3Lemmas Path SpecPath SpecDilate DilateTop
  Ensemble SpecEnsemble EnsembleSums EnsembleLin EnsembleWindow EnsembleTop SpecSymmetry SpecMoved DerivedCluster DerivedDilate DerivedEnsemble SpecAlgebra.
Import ListNotations.
Open Scope Z_scope.

Lemma each_image : forall A B (F : A -> B) shape f, is_image shape f -> is_image shape (each F f).
Proof. intros A B F shape f [H1 H2]. split; [exact H1|]. unfold each, lenZ in *. cbn [i_vals]. rewrite map_length. exact H2. Qed.

Lemma blend_image : forall a b shape f g, is_image shape f -> is_image shape g -> is_image shape (blend a b f g).
Proof.
  intros a b shape f g [H1 H2] [H3 H4]. split; [exact H1|]. unfold blend, lenZ in *. cbn [i_vals]. rewrite map_length, combine_length. lia.
Qed.

Lemma each_qn : forall A (d : A) (F : A -> Qc) (v : list A) p, 0 <= p < lenZ v -> qn (map F v) p = F (nth (Z.to_nat p) v d).
Proof. intros A d F v p Hp. unfold qn. rewrite (nth_indep _ 0%Qc (F d)) by (rewrite map_length; unfold lenZ in Hp; lia). apply map_nth. Qed.

Lemma each_zn : forall (F : Z -> Z) (v : list Z) p, 0 <= p < lenZ v -> zn (map F v) p = F (zn v p).
Proof. intros F v p Hp. unfold zn. rewrite (nth_indep _ 0 (F 0)) by (rewrite map_length; unfold lenZ in Hp; lia). apply map_nth. Qed.

Lemma blend_qn : forall a b (v w : list Qc) p, lenZ v = lenZ w -> 0 <= p < lenZ v ->
  qn (map (fun x => a * fst x + b * snd x)%Qc (combine v w)) p = (a * qn v p + b * qn w p)%Qc.
Proof.
  intros a b v w p HL Hp. rewrite (each_qn _ (0%Qc, 0%Qc)) by (unfold lenZ in *; rewrite combine_length; lia).
  rewrite combine_nth by (unfold lenZ in *; lia). reflexivity.
Qed.

Lemma mask2_ok : forall A shape (f : img A) m, Forall (fun n => 1 <= n) shape -> is_image shape f -> masks_of shape m ->
  is_mask shape (fst (mask2 f m)) /\ is_mask shape (snd (mask2 f m)).
Proof.
  intros A shape f [[fm gm]|] HP [H1 H2] HM; cbn [mask2 fst snd]; [exact HM|]. rewrite H1. split; apply zeros_mask; auto.
Qed.

Lemma mask1_ok : forall A shape (f : img A) m, Forall (fun n => 1 <= n) shape -> is_image shape f -> mask_of shape m ->
  is_mask shape (mask1 f m).
Proof. intros A shape f [fm|] HP [H1 H2] HM; cbn [mask1]; [exact HM|]. rewrite H1. apply zeros_mask; auto. Qed.

Lemma mask2_shape : forall A B (f : img A) (g : img B) m, i_shape f = i_shape g -> mask2 f m = mask2 g m.
Proof. intros A B f g [m|] H; cbn [mask2]; [reflexivity|]. rewrite H. reflexivity. Qed.

Lemma mask1_shape : forall A B (f : img A) (g : img B) m, i_shape f = i_shape g -> mask1 f m = mask1 g m.
Proof. intros A B f g [m|] H; cbn [mask1]; [reflexivity|]. rewrite H. reflexivity. Qed.

(** What a call measures, all shapes and masks legal. *)
Lemma S2_any : forall asrt per var roi shape f g m, shapes per roi shape -> is_image shape f -> is_image shape g -> masks_of shape m ->
  exists e, fresh asrt roi per var (CallS2 f g m) = Ok e /\ roi_shaped roi e /\
    forall r, pixel roi r ->
      let l := filter (seen shape (i_vals (fst (mask2 f m))) (i_vals (snd (mask2 f m))) (offset roi r)) (pairs per shape (offset roi r)) in
      first_at e r = sum_over l (fun pq => qn (i_vals f) (fst pq) * qn (i_vals g) (snd pq))%Qc /\ second_at e r = 0%Qc /\
      norm_at e r = sum_over l (fun _ => 1%Qc) /\ result_at e r = Exact (first_at e r / safe (norm_at e r))%Qc.
Proof.
  intros asrt per var roi shape f g m HS Hf Hg HM. destruct (mask2_ok _ shape f m) as [M1 M2]; auto; [apply HS|].
  assert (PC : pair_call shape (CallS2 f g m)) by (cbn [pair_call]; auto).
  destruct (pair_call_ok asrt per var roi shape (CallS2 f g m) _ _ _ _ _ HS PC eq_refl) as (e & E & S & V).
  exists e. split; auto. split; auto. intros r Hr. destruct (V r Hr) as (A1 & A2 & A3 & A4). cbv zeta in *.
  split; auto. split; [rewrite A2; apply sum_zero|]. split; auto.
Qed.

Lemma C2_any : forall asrt per var roi shape f g m, shapes per roi shape -> is_image shape f -> is_image shape g -> masks_of shape m ->
  exists e, fresh asrt roi per var (CallC2 f g m) = Ok e /\ roi_shaped roi e /\
    forall r, pixel roi r ->
      let l := filter (seen shape (i_vals (fst (mask2 f m))) (i_vals (snd (mask2 f m))) (offset roi r)) (pairs per shape (offset roi r)) in
      first_at e r = sum_over l (fun pq => if same_label (i_vals f) (i_vals g) pq then 1%Qc else 0%Qc) /\ second_at e r = 0%Qc /\
      norm_at e r = sum_over l (fun _ => 1%Qc) /\ result_at e r = Exact (first_at e r / safe (norm_at e r))%Qc.
Proof.
  intros asrt per var roi shape f g m HS Hf Hg HM. destruct (mask2_ok _ shape f m) as [M1 M2]; auto; [apply HS|].
  assert (PC : pair_call shape (CallC2 f g m)) by (cbn [pair_call]; auto).
  destruct (pair_call_ok asrt per var roi shape (CallC2 f g m) _ _ _ _ _ HS PC eq_refl) as (e & E & S & V).
  exists e. split; auto. split; auto. intros r Hr. destruct (V r Hr) as (A1 & A2 & A3 & A4). cbv zeta in *.
  split; auto. split; [rewrite A2; apply sum_zero|]. split; auto.
Qed.

Lemma W2_any : forall asrt per var roi shape w g m, shapes per roi shape -> is_image shape w -> is_image shape g -> mask_of shape m ->
  exists e, fresh asrt roi per var (CallW2 w g m) = Ok e /\ roi_shaped roi e /\
    forall r, pixel roi r ->
      let l := filter (seen shape [] (i_vals (mask1 w m)) (offset roi r)) (pairs per shape (offset roi r)) in
      first_at e r = sum_over l (fun pq => qn (i_vals w) (fst pq) * qn (i_vals g) (snd pq))%Qc /\ second_at e r = 0%Qc /\
      norm_at e r = sum_over l (fun pq => qn (i_vals w) (fst pq)) /\ result_at e r = Exact (first_at e r / safe (norm_at e r))%Qc.
Proof.
  intros asrt per var roi shape w g m HS Hf Hg HM. assert (M1 : is_mask shape (mask1 w m)) by (apply mask1_ok; auto; apply HS).
  assert (PC : pair_call shape (CallW2 w g m)) by (cbn [pair_call]; auto).
  destruct (pair_call_ok asrt per var roi shape (CallW2 w g m) _ _ _ _ _ HS PC eq_refl) as (e & E & S & V).
  exists e. split; auto. split; auto. intros r Hr. destruct (V r Hr) as (A1 & A2 & A3 & A4). cbv zeta in *.
  split; auto. split; [rewrite A2; apply sum_zero|]. split; auto.
Qed.

Lemma HH_any : forall asrt per var roi shape f m, shapes per roi shape -> is_image shape f -> mask_of shape m ->
  exists e, fresh asrt roi per var (CallHH f m) = Ok e /\ roi_shaped roi e /\
    forall r, pixel roi r ->
      let l := filter (seen shape (i_vals (mask1 f m)) (i_vals (mask1 f m)) (offset roi r)) (pairs per shape (offset roi r)) in
      first_at e r = sum_over l (sqdiff (i_vals f)) /\
      second_at e r = sum_over l (fun pq => if var then (sqdiff (i_vals f) pq * sqdiff (i_vals f) pq)%Qc else 0%Qc) /\
      norm_at e r = sum_over l (fun _ => 1%Qc) /\ result_at e r = root (Exact (first_at e r / safe (norm_at e r))%Qc).
Proof.
  intros asrt per var roi shape f m HS Hf HM. assert (M1 : is_mask shape (mask1 f m)) by (apply mask1_ok; auto; apply HS).
  assert (PC : pair_call shape (CallHH f m)) by (cbn [pair_call]; auto).
  destruct (pair_call_ok asrt per var roi shape (CallHH f m) _ _ _ _ _ HS PC eq_refl) as (e & E & S & V).
  exists e. split; [exact E|]. split; [exact S|]. exact V.
Qed.

(** Data that agree everywhere are the same data. *)
Lemma same_data_at : forall roi e e' r0 r0', r0 = Ok e -> r0' = Ok e' -> roi_shaped roi e -> roi_shaped roi e' ->
  (forall r, pixel roi r -> same_at e r e' r) -> same_data r0 r0'.
Proof.
  intros roi e e' r0 r0' E E' (L1 & L2 & L3 & L4) (L1' & L2' & L3' & L4') W. exists e, e'. split; auto. split; auto.
  repeat split.
  - apply list_ext_qn; [unfold lenZ in *; lia|]. intros r Hr. symmetry. apply (W r). unfold pixel. lia.
  - apply list_ext_qn; [unfold lenZ in *; lia|]. intros r Hr. symmetry. apply (W r). unfold pixel. lia.
  - apply list_ext_qn; [unfold lenZ in *; lia|]. intros r Hr. symmetry. apply (W r). unfold pixel. lia.
  - apply (nth_ext _ _ NaN NaN); [unfold lenZ in *; lia|]. intros n Hn. symmetry.
    destruct (W (Z.of_nat n)) as (_ & _ & _ & X); [unfold pixel, lenZ in *; lia|]. unfold result_at in X. rewrite Nat2Z.id in X. exact X.
Qed.

Ltac in_range H Hf := apply seen_In in H; destruct H as (?P & ?Q & _); destruct Hf as [_ ?HL]; unfold pixel in *.

(** ** heightheight *)

Lemma each_sqdiff : forall (F : Qc -> Qc) k v p q, 0 <= p < lenZ v -> 0 <= q < lenZ v ->
  (forall x y, F y - F x = k * (y - x))%Qc -> sqdiff (map F v) (p, q) = (k * k * sqdiff v (p, q))%Qc.
Proof.
  intros F k v p q Hp Hq HF. unfold sqdiff. cbn [fst snd]. rewrite !(each_qn _ 0%Qc) by auto. fold (qn v p) (qn v q).
  rewrite HF. ring.
Qed.

Lemma hh_affine : forall asrt per var roi shape f m F k, shapes per roi shape -> is_image shape f -> mask_of shape m ->
  (forall x y, F y - F x = k * (y - x))%Qc ->
  exists e e', fresh asrt roi per var (CallHH f m) = Ok e /\ fresh asrt roi per var (CallHH (each F f) m) = Ok e' /\
    roi_shaped roi e /\ roi_shaped roi e' /\
    forall r, pixel roi r ->
      first_at e' r = (k * k * first_at e r)%Qc /\ second_at e' r = (k * k * (k * k) * second_at e r)%Qc /\ norm_at e' r = norm_at e r /\
      exists q, (0 <= q)%Qc /\ result_at e r = Root q /\ result_at e' r = Root (k * k * q)%Qc.
Proof.
  intros asrt per var roi shape f m F k HS Hf HM HF.
  destruct (HH_any asrt per var roi shape f m HS Hf HM) as (e & E & S & V).
  destruct (HH_any asrt per var roi shape (each F f) m HS (each_image _ _ F _ _ Hf) HM) as (e' & E' & S' & V').
  exists e, e'. do 4 (split; auto). intros r Hr. destruct (V r Hr) as (A1 & A2 & A3 & A4). destruct (V' r Hr) as (B1 & B2 & B3 & B4). cbv zeta in *.
  rewrite (mask1_shape _ _ (each F f) f m eq_refl) in *.
  set (l := filter _ (pairs per shape (offset roi r))) in *.
  assert (X : forall pq, In pq l -> sqdiff (i_vals (each F f)) pq = (k * k * sqdiff (i_vals f) pq)%Qc).
  { intros [p q] H. unfold l in H. apply seen_In in H. destruct H as (P & Q & _). destruct Hf as [_ HL]. unfold pixel in *.
    unfold each. cbn [i_vals]. apply each_sqdiff; auto; lia. }
  assert (C1 : first_at e' r = (k * k * first_at e r)%Qc).
  { rewrite A1, B1, <- sum_scale. apply sum_ext. exact X. }
  assert (C2 : second_at e' r = (k * k * (k * k) * second_at e r)%Qc).
  { rewrite A2, B2, <- sum_scale. apply sum_ext. intros pq H. rewrite (X pq H). destruct var; ring. }
  assert (C3 : norm_at e' r = norm_at e r) by congruence.
  split; auto. split; auto. split; auto. exists (first_at e r / safe (norm_at e r))%Qc.
  assert (N : (0 <= first_at e r / safe (norm_at e r))%Qc).
  { rewrite A3, sum_one, safe_count.
    - apply quotient_nonneg; [|unfold lenZ; lia]. rewrite A1. apply sum_nonneg. intros pq _. unfold sqdiff. apply sq_nonneg.
    - unfold lenZ; lia.
    - intros Z. rewrite A1. unfold lenZ in Z. destruct l; [reflexivity|cbn [length] in Z; lia]. }
  split; auto. rewrite A4, B4, C1, C3. unfold root.
  replace (Qclt_b (first_at e r / safe (norm_at e r)) 0) with false.
  2:{ symmetry. apply not_true_is_false. intros T. apply Qclt_b_iff in T. exact (Qclt_not_le _ _ T N). }
  split; auto. assert (EQ : (k * k * first_at e r / safe (norm_at e r) = k * k * (first_at e r / safe (norm_at e r)))%Qc) by (unfold Qcdiv; ring).
  rewrite EQ. replace (Qclt_b (k * k * (first_at e r / safe (norm_at e r))) 0) with false; auto.
  symmetry. apply not_true_is_false. intros T. apply Qclt_b_iff in T. apply (Qclt_not_le _ _ T).
  rewrite <- (Qcmult_0_l (first_at e r / safe (norm_at e r))). apply Qcmult_le_compat_r; auto. apply sq_nonneg.
Qed.

Lemma hh_shift : forall asrt per var roi shape f m a, shapes per roi shape -> is_image shape f -> mask_of shape m ->
  same_data (fresh asrt roi per var (CallHH f m)) (fresh asrt roi per var (CallHH (each (fun x => x + a)%Qc f) m)).
Proof.
  intros asrt per var roi shape f m a HS Hf HM.
  destruct (hh_affine asrt per var roi shape f m (fun x => x + a)%Qc 1%Qc HS Hf HM) as (e & e' & E & E' & S & S' & V); [intros; ring|].
  apply (same_data_at roi e e'); auto. intros r Hr. destruct (V r Hr) as (A1 & A2 & A3 & q & _ & A4 & A5).
  unfold same_at. rewrite A1, A2, A3, A4, A5. repeat split; try ring. f_equal. ring.
Qed.

Lemma hh_scale : forall asrt per var roi shape f m k, shapes per roi shape -> is_image shape f -> mask_of shape m ->
  exists e e', fresh asrt roi per var (CallHH f m) = Ok e /\ fresh asrt roi per var (CallHH (each (fun x => k * x)%Qc f) m) = Ok e' /\
    forall r, pixel roi r ->
      first_at e' r = (k * k * first_at e r)%Qc /\ second_at e' r = (k * k * (k * k) * second_at e r)%Qc /\ norm_at e' r = norm_at e r /\
      exists q, (0 <= q)%Qc /\ result_at e r = Root q /\ result_at e' r = Root (k * k * q)%Qc.
Proof.
  intros asrt per var roi shape f m k HS Hf HM.
  destruct (hh_affine asrt per var roi shape f m (fun x => k * x)%Qc k HS Hf HM) as (e & e' & E & E' & S & S' & V); [intros; ring|].
  exists e, e'. auto.
Qed.

(** Periodic sums over the first or the second pixel alone. *)
Lemma sum_pairs_fst : forall roi shape r F, shapes true roi shape -> pixel roi r ->
  sum_over (pairs true shape (offset roi r)) (fun pq => F (fst pq)) = sum_over (pixels shape) F.
Proof.
  intros roi shape r F HS Hr. destruct (shapes_dims3 _ _ _ HS) as (n0 & n1 & n2 & k0 & k1 & k2 & [HL H3 HN HK PN PK HF]).
  unfold pixel in Hr. rewrite (shape3_prod _ _ _ _ HK) in Hr.
  rewrite (sum_pairs true shape roi n0 n1 n2 k0 k1 k2) by (auto; lia). unfold pixels. rewrite (shape3_prod _ _ _ _ HN). unfold partner, dec. reflexivity.
Qed.

Lemma sum_pairs_snd : forall roi shape r F, shapes true roi shape -> pixel roi r ->
  sum_over (pairs true shape (offset roi r)) (fun pq => F (snd pq)) = sum_over (pixels shape) F.
Proof.
  intros roi shape r F HS Hr.
  assert (HP : Forall (fun n => 1 <= n) shape) by apply HS. assert (HP' : Forall (fun n => 0 < n) shape) by (apply image_pos; auto).
  assert (HL : length (offset roi r) = length shape) by (rewrite offset_length; apply HS).
  set (d := offset roi r) in *.
  (* for every q there is exactly one p *)
  unfold pairs. rewrite sum_filter, sum_prod, sum_swap. apply sum_ext. intros q Hq. cbn [fst snd]. unfold pixels in Hq. apply zrange_In in Hq.
  destruct (moved_total shape (coords shape q) (opposite d)) as (b & Ib & Mb); auto.
  { apply coords_inside; auto. } { unfold opposite. rewrite map_length. auto. }
  destruct (pixel_of_coords shape b Ib) as (p0 & Hp0 & Ep0).
  apply (sum_single (pixels shape) (fun p => movedb true shape (coords shape p) d (coords shape q)) (fun _ => F q) p0).
  - apply zrange_NoDup.
  - unfold pixels. apply zrange_In. exact Hp0.
  - intros p Hp. unfold pixels in Hp. apply zrange_In in Hp.
    rewrite <- (movedb_opp true shape (coords shape q) d (coords shape p)) by (auto; apply coords_inside; auto).
    rewrite movedb_iff. split.
    + intros M. apply (coords_inj shape); auto. rewrite Ep0. eapply moved_functional; eauto.
    + intros ->. rewrite Ep0. exact Mb.
Qed.

Lemma hh_from_S2 : forall asrt var roi shape f, shapes true roi shape -> is_image shape f ->
  exists e e', fresh asrt roi true var (CallHH f None) = Ok e /\ fresh asrt roi true var (CallS2 f f None) = Ok e' /\
    forall r r0, pixel roi r -> pixel roi r0 -> zero_offset (offset roi r0) ->
      first_at e r = (zq 2 * (first_at e' r0 - first_at e' r))%Qc /\ norm_at e r = norm_at e' r.
Proof.
  intros asrt var roi shape f HS Hf.
  destruct (HH_any asrt true var roi shape f None HS Hf I) as (e & E & S & V).
  destruct (S2_any asrt true var roi shape f f None HS Hf Hf I) as (e' & E' & S' & V').
  exists e, e'. split; auto. split; auto. intros r r0 Hr Hr0 HZ.
  destruct (V r Hr) as (A1 & A2 & A3 & A4). destruct (V' r Hr) as (B1 & B2 & B3 & B4). destruct (V' r0 Hr0) as (C1 & C2 & C3 & C4).
  cbv zeta in *. cbn [mask1 mask2 fst snd zeros i_vals] in *. rewrite seen_zeros in *. split; [|congruence].
  rewrite A1, B1, C1. rewrite (sum_pairs_zero true shape (offset roi r0)); auto; [|apply HS|rewrite offset_length; apply HS]. cbn [fst snd].
  rewrite (sum_ext _ (pairs true shape (offset roi r)) _
    (fun pq => qn (i_vals f) (snd pq) * qn (i_vals f) (snd pq) + (qn (i_vals f) (fst pq) * qn (i_vals f) (fst pq)
               + (- zq 2) * (qn (i_vals f) (fst pq) * qn (i_vals f) (snd pq))))%Qc).
  - rewrite !sum_plus, sum_scale.
    rewrite (sum_pairs_fst roi shape r (fun p => qn (i_vals f) p * qn (i_vals f) p)%Qc HS Hr).
    rewrite (sum_pairs_snd roi shape r (fun p => qn (i_vals f) p * qn (i_vals f) p)%Qc HS Hr).
    replace (zq 2) with (1 + 1)%Qc by reflexivity. ring.
  - intros [p q] _. unfold sqdiff. cbn [fst snd]. replace (zq 2) with (1 + 1)%Qc by reflexivity. ring.
Qed.

(** ** S2 *)

Lemma S2_linear_first : forall asrt per var roi shape a b f f' g m, shapes per roi shape ->
  is_image shape f -> is_image shape f' -> is_image shape g -> masks_of shape m ->
  exists e e1 e2, fresh asrt roi per var (CallS2 (blend a b f f') g m) = Ok e /\
    fresh asrt roi per var (CallS2 f g m) = Ok e1 /\ fresh asrt roi per var (CallS2 f' g m) = Ok e2 /\
    forall r, pixel roi r -> norm_at e r = norm_at e1 r /\ norm_at e r = norm_at e2 r /\
      first_at e r = (a * first_at e1 r + b * first_at e2 r)%Qc /\
      exists q1 q2, result_at e1 r = Exact q1 /\ result_at e2 r = Exact q2 /\ result_at e r = Exact (a * q1 + b * q2)%Qc.
Proof.
  intros asrt per var roi shape a b f f' g m HS Hf Hf' Hg HM.
  destruct (S2_any asrt per var roi shape (blend a b f f') g m HS (blend_image _ _ _ _ _ Hf Hf') Hg HM) as (e & E & S & V).
  destruct (S2_any asrt per var roi shape f g m HS Hf Hg HM) as (e1 & E1 & S1 & V1).
  destruct (S2_any asrt per var roi shape f' g m HS Hf' Hg HM) as (e2 & E2 & S2 & V2).
  exists e, e1, e2. split; auto. split; auto. split; auto. intros r Hr.
  destruct (V r Hr) as (A1 & A2 & A3 & A4). destruct (V1 r Hr) as (B1 & B2 & B3 & B4). destruct (V2 r Hr) as (C1 & C2 & C3 & C4). cbv zeta in *.
  rewrite (mask2_shape _ _ (blend a b f f') f m eq_refl) in *.
  assert (SH : i_shape f' = i_shape f) by (destruct Hf as [-> _], Hf' as [-> _]; auto).
  rewrite (mask2_shape _ _ f' f m SH) in *.
  set (l := filter _ (pairs per shape (offset roi r))) in *.
  assert (N1 : norm_at e r = norm_at e1 r) by congruence. assert (N2 : norm_at e r = norm_at e2 r) by congruence.
  assert (F : first_at e r = (a * first_at e1 r + b * first_at e2 r)%Qc).
  { rewrite A1, B1, C1, <- !sum_scale, <- sum_plus. apply sum_ext. intros [p q] H. unfold l in H. apply seen_In in H. destruct H as (P & Q & _).
    destruct Hf as [_ L1], Hf' as [_ L2]. cbn [fst snd]. unfold blend. cbn [i_vals]. unfold pixel in P. rewrite blend_qn by lia. ring. }
  split; auto. split; auto. split; auto. eexists. eexists. split; [exact B4|]. split; [exact C4|]. rewrite A4, F, <- N1, <- N2. f_equal. unfold Qcdiv. ring.
Qed.

Lemma S2_linear_second : forall asrt per var roi shape a b f g g' m, shapes per roi shape ->
  is_image shape f -> is_image shape g -> is_image shape g' -> masks_of shape m ->
  exists e e1 e2, fresh asrt roi per var (CallS2 f (blend a b g g') m) = Ok e /\
    fresh asrt roi per var (CallS2 f g m) = Ok e1 /\ fresh asrt roi per var (CallS2 f g' m) = Ok e2 /\
    forall r, pixel roi r -> norm_at e r = norm_at e1 r /\ norm_at e r = norm_at e2 r /\
      first_at e r = (a * first_at e1 r + b * first_at e2 r)%Qc /\
      exists q1 q2, result_at e1 r = Exact q1 /\ result_at e2 r = Exact q2 /\ result_at e r = Exact (a * q1 + b * q2)%Qc.
Proof.
  intros asrt per var roi shape a b f g g' m HS Hf Hg Hg' HM.
  destruct (S2_any asrt per var roi shape f (blend a b g g') m HS Hf (blend_image _ _ _ _ _ Hg Hg') HM) as (e & E & S & V).
  destruct (S2_any asrt per var roi shape f g m HS Hf Hg HM) as (e1 & E1 & S1 & V1).
  destruct (S2_any asrt per var roi shape f g' m HS Hf Hg' HM) as (e2 & E2 & S2 & V2).
  exists e, e1, e2. split; auto. split; auto. split; auto. intros r Hr.
  destruct (V r Hr) as (A1 & A2 & A3 & A4). destruct (V1 r Hr) as (B1 & B2 & B3 & B4). destruct (V2 r Hr) as (C1 & C2 & C3 & C4). cbv zeta in *.
  set (l := filter _ (pairs per shape (offset roi r))) in *.
  assert (N1 : norm_at e r = norm_at e1 r) by congruence. assert (N2 : norm_at e r = norm_at e2 r) by congruence.
  assert (F : first_at e r = (a * first_at e1 r + b * first_at e2 r)%Qc).
  { rewrite A1, B1, C1, <- !sum_scale, <- sum_plus. apply sum_ext. intros [p q] H. unfold l in H. apply seen_In in H. destruct H as (P & Q & _).
    destruct Hg as [_ L1], Hg' as [_ L2]. cbn [fst snd]. unfold blend. cbn [i_vals]. unfold pixel in Q. rewrite blend_qn by lia. ring. }
  split; auto. split; auto. split; auto. eexists. eexists. split; [exact B4|]. split; [exact C4|]. rewrite A4, F, <- N1, <- N2. f_equal. unfold Qcdiv. ring.
Qed.

(** Exchanging the images mirrors the offsets. *)
Lemma seen_exchange : forall per shape fm gm d T, Forall (fun n => 1 <= n) shape ->
  (per = false \/ (forall p, zn fm p = 0) /\ (forall p, zn gm p = 0)) ->
  sum_over (filter (seen shape gm fm (opposite d)) (pairs per shape (opposite d))) T =
  sum_over (filter (seen shape fm gm d) (pairs per shape d)) (fun pq => T (snd pq, fst pq)).
Proof.
  intros per shape fm gm d T HP HC. destruct HC as [->|[Z1 Z2]].
  - rewrite !seen_nonper, !sum_filter, sum_pairs_opp by auto. apply sum_ext. intros [p q] _. unfold unmasked. cbn [fst snd]. rewrite andb_comm. reflexivity.
  - rewrite !filter_all; [apply sum_pairs_opp; auto| |]; intros [p q] _; unfold seen; cbn [fst snd]; rewrite ?Z1, ?Z2; reflexivity.
Qed.

Lemma exchange_masks : forall A B (f : img A) (g : img B) m, i_shape f = i_shape g ->
  mask2 g (exchanged m) = (snd (mask2 f m), fst (mask2 f m)).
Proof. intros A B f g [[fm gm]|] H; cbn [exchanged mask2 fst snd]; [reflexivity|rewrite H; reflexivity]. Qed.

Lemma exchanged_masks_of : forall shape m, masks_of shape m -> masks_of shape (exchanged m).
Proof. intros shape [[fm gm]|]; cbn [exchanged masks_of]; tauto. Qed.

Lemma mask2_zero : forall A (f : img A) m per, (per = false \/ m = None) ->
  per = false \/ (forall p, zn (i_vals (fst (mask2 f m))) p = 0) /\ (forall p, zn (i_vals (snd (mask2 f m))) p = 0).
Proof. intros A f m per [->| ->]; [left; auto|right]. cbn [mask2 fst snd zeros i_vals]. split; intros; apply zn_repeat0. Qed.

Lemma S2_exchange : forall asrt per var roi shape f g m, shapes per roi shape -> is_image shape f -> is_image shape g -> masks_of shape m ->
  (per = false \/ m = None) ->
  exists e e', fresh asrt roi per var (CallS2 f g m) = Ok e /\ fresh asrt roi per var (CallS2 g f (exchanged m)) = Ok e' /\
    forall r r', pixel roi r -> pixel roi r' -> offset roi r' = opposite (offset roi r) -> same_at e r e' r'.
Proof.
  intros asrt per var roi shape f g m HS Hf Hg HM HC.
  assert (SH : i_shape f = i_shape g) by (destruct Hf as [-> _], Hg as [-> _]; auto).
  destruct (S2_any asrt per var roi shape f g m HS Hf Hg HM) as (e & E & S & V).
  destruct (S2_any asrt per var roi shape g f (exchanged m) HS Hg Hf (exchanged_masks_of _ _ HM)) as (e' & E' & S' & V').
  exists e, e'. split; auto. split; auto. intros r r' Hr Hr' HO.
  destruct (V r Hr) as (A1 & A2 & A3 & A4). destruct (V' r' Hr') as (B1 & B2 & B3 & B4). cbv zeta in *.
  rewrite (exchange_masks _ _ f g m SH) in *. cbn [fst snd] in *. rewrite HO in *.
  pose proof (mask2_zero _ f m per HC) as HZ. rewrite seen_exchange in B1, B3 by (auto; apply HS). cbn [fst snd] in *.
  assert (X1 : first_at e' r' = first_at e r) by (rewrite A1, B1; apply sum_ext; intros; ring).
  assert (X3 : norm_at e' r' = norm_at e r) by congruence.
  unfold same_at. rewrite A4, B4, X1, X3, A2, B2. auto.
Qed.

Lemma C2_exchange : forall asrt per var roi shape f g m, shapes per roi shape -> is_image shape f -> is_image shape g -> masks_of shape m ->
  (per = false \/ m = None) ->
  exists e e', fresh asrt roi per var (CallC2 f g m) = Ok e /\ fresh asrt roi per var (CallC2 g f (exchanged m)) = Ok e' /\
    forall r r', pixel roi r -> pixel roi r' -> offset roi r' = opposite (offset roi r) -> same_at e r e' r'.
Proof.
  intros asrt per var roi shape f g m HS Hf Hg HM HC.
  assert (SH : i_shape f = i_shape g) by (destruct Hf as [-> _], Hg as [-> _]; auto).
  destruct (C2_any asrt per var roi shape f g m HS Hf Hg HM) as (e & E & S & V).
  destruct (C2_any asrt per var roi shape g f (exchanged m) HS Hg Hf (exchanged_masks_of _ _ HM)) as (e' & E' & S' & V').
  exists e, e'. split; auto. split; auto. intros r r' Hr Hr' HO.
  destruct (V r Hr) as (A1 & A2 & A3 & A4). destruct (V' r' Hr') as (B1 & B2 & B3 & B4). cbv zeta in *.
  rewrite (exchange_masks _ _ f g m SH) in *. cbn [fst snd] in *. rewrite HO in *.
  pose proof (mask2_zero _ f m per HC) as HZ. rewrite seen_exchange in B1, B3 by (auto; apply HS). cbn [fst snd] in *.
  assert (X1 : first_at e' r' = first_at e r).
  { rewrite A1, B1. apply sum_ext. intros [p q] _. unfold same_label. cbn [fst snd].
    destruct (Z.eqb_spec (zn (i_vals f) p) (zn (i_vals g) q)) as [EQ|NE].
    - rewrite <- EQ, Z.eqb_refl. reflexivity.
    - rewrite (proj2 (Z.eqb_neq (zn (i_vals g) q) (zn (i_vals f) p))) by auto. rewrite !andb_false_r. reflexivity. }
  assert (X3 : norm_at e' r' = norm_at e r) by congruence.
  unfold same_at. rewrite A4, B4, X1, X3, A2, B2. auto.
Qed.

Lemma HH_exchange : forall asrt per var roi shape f m, shapes per roi shape -> is_image shape f -> mask_of shape m ->
  (per = false \/ m = None) ->
  exists e, fresh asrt roi per var (CallHH f m) = Ok e /\
    forall r r', pixel roi r -> pixel roi r' -> offset roi r' = opposite (offset roi r) -> same_at e r e r'.
Proof.
  intros asrt per var roi shape f m HS Hf HM HC.
  destruct (HH_any asrt per var roi shape f m HS Hf HM) as (e & E & S & V).
  exists e. split; auto. intros r r' Hr Hr' HO.
  destruct (V r Hr) as (A1 & A2 & A3 & A4). destruct (V r' Hr') as (B1 & B2 & B3 & B4). cbv zeta in *.
  rewrite HO in *.
  assert (HZ : per = false \/ (forall p, zn (i_vals (mask1 f m)) p = 0) /\ (forall p, zn (i_vals (mask1 f m)) p = 0)).
  { destruct HC as [->| ->]; [left; auto|right]. cbn [mask1 zeros i_vals]. split; intros; apply zn_repeat0. }
  rewrite seen_exchange in B1, B2, B3 by (auto; apply HS).
  assert (SQ : forall p q, sqdiff (i_vals f) (q, p) = sqdiff (i_vals f) (p, q)) by (intros; unfold sqdiff; cbn [fst snd]; ring).
  assert (X1 : first_at e r' = first_at e r) by (rewrite A1, B1; apply sum_ext; intros [p q] _; apply SQ).
  assert (X2 : second_at e r' = second_at e r) by (rewrite A2, B2; apply sum_ext; intros [p q] _; cbn [fst snd]; rewrite SQ; auto).
  assert (X3 : norm_at e r' = norm_at e r) by congruence.
  unfold same_at. rewrite A4, B4, X1, X3, X2. auto.
Qed.

(** ** W2 *)

Lemma sum_zero_all : forall A (l : list A) F, (forall x, In x l -> (0 <= F x)%Qc) -> sum_over l F = 0%Qc -> forall x, In x l -> F x = 0%Qc.
Proof.
  induction l as [|y l IH]; intros F HN H x Hx; [destruct Hx|]. rewrite sum_cons in H.
  assert (N1 : (0 <= F y)%Qc) by (apply HN; simpl; auto).
  assert (N2 : (0 <= sum_over l F)%Qc) by (apply sum_nonneg; intros; apply HN; simpl; auto).
  assert (Y : F y = 0%Qc).
  { apply Qcle_antisym; auto. rewrite <- H. rewrite <- (Qcplus_0_r (F y)) at 1. apply Qcplus_le_compat; auto. apply Qcle_refl. }
  destruct Hx as [->|Hx]; auto. apply IH; auto. { intros; apply HN; simpl; auto. } rewrite Y, Qcplus_0_l in H. exact H.
Qed.

Lemma weight_at : forall w p, nonnegative w -> (0 <= qn (i_vals w) p)%Qc.
Proof.
  intros w p H. unfold qn. destruct (lt_dec (Z.to_nat p) (length (i_vals w))) as [L|L].
  - apply H. apply nth_In. auto.
  - rewrite nth_overflow by lia. apply Qcle_refl.
Qed.

Lemma safe_pos : forall n, (0 < n)%Qc -> safe n = n.
Proof. intros n H. unfold safe. apply Qclt_b_iff in H. rewrite H. reflexivity. Qed.

Lemma W2_constant : forall asrt per var roi shape w f m c, shapes per roi shape -> is_image shape w -> is_image shape f -> mask_of shape m ->
  (forall x, In x (i_vals f) -> x = c) ->
  exists e, fresh asrt roi per var (CallW2 w f m) = Ok e /\
    forall r, pixel roi r -> (0 < norm_at e r)%Qc -> result_at e r = Exact c.
Proof.
  intros asrt per var roi shape w f m c HS Hw Hf HM HC.
  destruct (W2_any asrt per var roi shape w f m HS Hw Hf HM) as (e & E & S & V).
  exists e. split; auto. intros r Hr HN. destruct (V r Hr) as (A1 & A2 & A3 & A4). cbv zeta in *.
  set (l := filter _ (pairs per shape (offset roi r))) in *.
  assert (F : first_at e r = (c * norm_at e r)%Qc).
  { rewrite A1, A3, <- sum_scale. apply sum_ext. intros [p q] H. unfold l in H. apply seen_In in H. destruct H as (P & Q & _).
    cbn [fst snd]. rewrite (HC (qn (i_vals f) q)); [ring|]. apply qn_In. destruct Hf as [_ ->]. exact Q. }
  rewrite A4, F, safe_pos by auto. f_equal. field. intros Z. rewrite Z in HN. exact (Qclt_not_eq _ _ HN eq_refl).
Qed.

Lemma W2_scale_weights : forall asrt per var roi shape w f m k, shapes per roi shape -> is_image shape w -> is_image shape f -> mask_of shape m ->
  nonnegative w -> (0 < k)%Qc ->
  exists e e', fresh asrt roi per var (CallW2 w f m) = Ok e /\ fresh asrt roi per var (CallW2 (each (fun x => k * x)%Qc w) f m) = Ok e' /\
    result e' = result e /\ forall r, pixel roi r -> norm_at e' r = (k * norm_at e r)%Qc.
Proof.
  intros asrt per var roi shape w f m k HS Hw Hf HM HN Hk.
  destruct (W2_any asrt per var roi shape w f m HS Hw Hf HM) as (e & E & S & V).
  destruct (W2_any asrt per var roi shape (each (fun x => k * x)%Qc w) f m HS (each_image _ _ _ _ _ Hw) Hf HM) as (e' & E' & S' & V').
  exists e, e'. split; auto. split; auto.
  assert (K : forall r, pixel roi r -> norm_at e' r = (k * norm_at e r)%Qc /\ result_at e' r = result_at e r).
  { intros r Hr. destruct (V r Hr) as (A1 & A2 & A3 & A4). destruct (V' r Hr) as (B1 & B2 & B3 & B4). cbv zeta in *.
    rewrite (mask1_shape _ _ (each (fun x => k * x)%Qc w) w m eq_refl) in *.
    set (l := filter _ (pairs per shape (offset roi r))) in *.
    assert (X : forall pq, In pq l -> qn (i_vals (each (fun x => k * x)%Qc w)) (fst pq) = (k * qn (i_vals w) (fst pq))%Qc).
    { intros [p q] H. unfold l in H. apply seen_In in H. destruct H as (P & Q & _). destruct Hw as [_ L]. unfold pixel in P.
      cbn [fst]. unfold each. cbn [i_vals]. rewrite (each_qn _ 0%Qc) by lia. reflexivity. }
    assert (N : norm_at e' r = (k * norm_at e r)%Qc).
    { rewrite A3, B3, <- sum_scale. apply sum_ext. exact X. }
    assert (F : first_at e' r = (k * first_at e r)%Qc).
    { rewrite A1, B1, <- sum_scale. apply sum_ext. intros pq H. rewrite (X pq H). ring. }
    split; auto. rewrite A4, B4, N, F. f_equal.
    assert (NN : (0 <= norm_at e r)%Qc) by (rewrite A3; apply sum_nonneg; intros; apply weight_at; auto).
    destruct (Qceq_b (norm_at e r) 0) eqn:EZ.
    - apply Qceq_b_iff in EZ. assert (F0 : first_at e r = 0%Qc).
      { rewrite A1. rewrite (sum_ext _ l _ (fun _ => 0%Qc)); [apply sum_zero|]. intros pq H.
        rewrite A3 in EZ. pose proof (sum_zero_all _ l _ (fun x _ => weight_at w (fst x) HN) EZ pq H) as W. cbn beta in W. rewrite W. ring. }
      rewrite F0. unfold Qcdiv. ring.
    - assert (P : (0 < norm_at e r)%Qc).
      { destruct (Qcle_lt_or_eq _ _ NN) as [L|L]; auto. rewrite <- L in EZ. discriminate EZ. }
      assert (PK : (0 < k * norm_at e r)%Qc) by (rewrite <- (Qcmult_0_l (norm_at e r)); apply Qcmult_lt_compat_r; auto).
      rewrite !safe_pos by auto. field. split; intros Z; [rewrite Z in P; exact (Qclt_not_eq _ _ P eq_refl)|rewrite Z in Hk; exact (Qclt_not_eq _ _ Hk eq_refl)]. }
  split; [|intros r Hr; apply K; auto]. destruct S as (_ & _ & _ & L), S' as (_ & _ & _ & L').
  apply (nth_ext _ _ NaN NaN); [unfold lenZ in *; lia|]. intros n Hn.
  destruct (K (Z.of_nat n)) as [_ X]; [unfold pixel, lenZ in *; lia|]. unfold result_at in X. rewrite Nat2Z.id in X. exact X.
Qed.

Lemma W2_unit_weights : forall asrt per var roi shape w f, shapes per roi shape -> is_image shape w -> is_image shape f ->
  (forall x, In x (i_vals w) -> x = 1%Qc) ->
  forall m, mask_of shape m ->
  same_data (fresh asrt roi per var (CallW2 w f m)) (fresh asrt roi per var (CallS2 w f (Some (zeros shape, mask1 w m)))).
Proof.
  intros asrt per var roi shape w f HS Hw Hf HC m HM.
  assert (M : is_mask shape (mask1 w m)) by (apply mask1_ok; auto; apply HS).
  assert (M2 : masks_of shape (Some (zeros shape, mask1 w m))) by (split; auto; apply zeros_mask; apply HS).
  destruct (W2_any asrt per var roi shape w f m HS Hw Hf HM) as (e & E & S & V).
  destruct (S2_any asrt per var roi shape w f _ HS Hw Hf M2) as (e' & E' & S' & V').
  apply (same_data_at roi e e'); auto. intros r Hr. destruct (V r Hr) as (A1 & A2 & A3 & A4). destruct (V' r Hr) as (B1 & B2 & B3 & B4). cbv zeta in *.
  cbn [mask2 fst snd] in *.
  assert (EL : filter (seen shape (i_vals (zeros shape)) (i_vals (mask1 w m)) (offset roi r)) (pairs per shape (offset roi r)) =
               filter (seen shape [] (i_vals (mask1 w m)) (offset roi r)) (pairs per shape (offset roi r))).
  { apply filter_ext_in'. intros [p q] _. unfold seen. cbn [fst snd zeros i_vals]. rewrite zn_repeat0, zn_nil. reflexivity. }
  rewrite EL in *. set (l := filter _ (pairs per shape (offset roi r))) in *.
  assert (X1 : first_at e' r = first_at e r) by congruence.
  assert (X3 : norm_at e' r = norm_at e r).
  { rewrite A3, B3. apply sum_ext. intros [p q] H. unfold l in H. apply seen_In in H. destruct H as (P & Q & _). cbn [fst].
    symmetry. apply HC. apply qn_In. destruct Hw as [_ ->]. exact P. }
  unfold same_at. rewrite A4, B4, A2, B2, X1, X3. auto.
Qed.

Lemma W2_linear : forall asrt per var roi shape a b w f f' m, shapes per roi shape ->
  is_image shape w -> is_image shape f -> is_image shape f' -> mask_of shape m ->
  exists e e1 e2, fresh asrt roi per var (CallW2 w (blend a b f f') m) = Ok e /\
    fresh asrt roi per var (CallW2 w f m) = Ok e1 /\ fresh asrt roi per var (CallW2 w f' m) = Ok e2 /\
    forall r, pixel roi r -> norm_at e r = norm_at e1 r /\ norm_at e r = norm_at e2 r /\
      first_at e r = (a * first_at e1 r + b * first_at e2 r)%Qc /\
      exists q1 q2, result_at e1 r = Exact q1 /\ result_at e2 r = Exact q2 /\ result_at e r = Exact (a * q1 + b * q2)%Qc.
Proof.
  intros asrt per var roi shape a b w f f' m HS Hw Hf Hf' HM.
  destruct (W2_any asrt per var roi shape w (blend a b f f') m HS Hw (blend_image _ _ _ _ _ Hf Hf') HM) as (e & E & S & V).
  destruct (W2_any asrt per var roi shape w f m HS Hw Hf HM) as (e1 & E1 & S1 & V1).
  destruct (W2_any asrt per var roi shape w f' m HS Hw Hf' HM) as (e2 & E2 & S2 & V2).
  exists e, e1, e2. split; auto. split; auto. split; auto. intros r Hr.
  destruct (V r Hr) as (A1 & A2 & A3 & A4). destruct (V1 r Hr) as (B1 & B2 & B3 & B4). destruct (V2 r Hr) as (C1 & C2 & C3 & C4). cbv zeta in *.
  set (l := filter _ (pairs per shape (offset roi r))) in *.
  assert (N1 : norm_at e r = norm_at e1 r) by congruence. assert (N2 : norm_at e r = norm_at e2 r) by congruence.
  assert (F : first_at e r = (a * first_at e1 r + b * first_at e2 r)%Qc).
  { rewrite A1, B1, C1, <- !sum_scale, <- sum_plus. apply sum_ext. intros [p q] H. unfold l in H. apply seen_In in H. destruct H as (P & Q & _).
    destruct Hf as [_ L1], Hf' as [_ L2]. cbn [fst snd]. unfold blend. cbn [i_vals]. unfold pixel in Q. rewrite blend_qn by lia. ring. }
  split; auto. split; auto. split; auto. eexists. eexists. split; [exact B4|]. split; [exact C4|]. rewrite A4, F, <- N1, <- N2. f_equal. unfold Qcdiv. ring.
Qed.

(** ** C2 *)

Lemma C2_renamed : forall asrt per var roi shape f g m F, shapes per roi shape -> is_image shape f -> is_image shape g -> masks_of shape m ->
  renaming F ->
  same_data (fresh asrt roi per var (CallC2 f g m)) (fresh asrt roi per var (CallC2 (each F f) (each F g) m)).
Proof.
  intros asrt per var roi shape f g m F HS Hf Hg HM [F0 FI].
  destruct (C2_any asrt per var roi shape f g m HS Hf Hg HM) as (e & E & S & V).
  destruct (C2_any asrt per var roi shape (each F f) (each F g) m HS (each_image _ _ F _ _ Hf) (each_image _ _ F _ _ Hg) HM) as (e' & E' & S' & V').
  apply (same_data_at roi e e'); auto. intros r Hr. destruct (V r Hr) as (A1 & A2 & A3 & A4). destruct (V' r Hr) as (B1 & B2 & B3 & B4). cbv zeta in *.
  rewrite (mask2_shape _ _ (each F f) f m eq_refl) in *. set (l := filter _ (pairs per shape (offset roi r))) in *.
  assert (EQ : forall x y, (F x =? F y) = (x =? y)).
  { intros x y. destruct (Z.eqb_spec x y) as [->|N]; [apply Z.eqb_refl|]. apply Z.eqb_neq. intros X. apply N. auto. }
  assert (X1 : first_at e' r = first_at e r).
  { rewrite A1, B1. apply sum_ext. intros [p q] H. unfold l in H. apply seen_In in H. destruct H as (P & Q & _).
    destruct Hf as [_ L1], Hg as [_ L2]. unfold pixel in *. unfold same_label, each. cbn [fst snd i_vals]. rewrite !each_zn by lia.
    rewrite EQ. replace (F (zn (i_vals f) p) =? 0) with (zn (i_vals f) p =? 0) by (rewrite <- F0 at 2; symmetry; apply EQ). reflexivity. }
  assert (X3 : norm_at e' r = norm_at e r) by congruence.
  unfold same_at. rewrite A4, B4, A2, B2, X1, X3. auto.
Qed.

Lemma indicator_qn : forall shape f p, is_image shape f -> pixel shape p ->
  qn (i_vals (indicator f)) p = if zn (i_vals f) p =? 0 then 0%Qc else 1%Qc.
Proof. intros shape f p [_ L] P. unfold indicator, each. cbn [i_vals]. rewrite (each_qn _ 0) by (unfold pixel in P; lia). reflexivity. Qed.

Lemma C2_below_S2 : forall asrt per var roi shape f g m, shapes per roi shape -> is_image shape f -> is_image shape g -> masks_of shape m ->
  exists e e', fresh asrt roi per var (CallC2 f g m) = Ok e /\ fresh asrt roi per var (CallS2 (indicator f) (indicator g) m) = Ok e' /\
    (forall r, pixel roi r -> norm_at e r = norm_at e' r /\ (0 <= first_at e r)%Qc /\ (first_at e r <= first_at e' r)%Qc /\ (first_at e' r <= norm_at e' r)%Qc) /\
    ((forall x, In x (i_vals f) -> x = 0 \/ x = 1) -> (forall x, In x (i_vals g) -> x = 0 \/ x = 1) ->
     data_first e = data_first e' /\ norm e = norm e' /\ result e = result e').
Proof.
  intros asrt per var roi shape f g m HS Hf Hg HM.
  destruct (C2_any asrt per var roi shape f g m HS Hf Hg HM) as (e & E & S & V).
  destruct (S2_any asrt per var roi shape (indicator f) (indicator g) m HS (each_image _ _ _ _ _ Hf) (each_image _ _ _ _ _ Hg) HM) as (e' & E' & S' & V').
  exists e, e'. split; auto. split; auto. split.
  - intros r Hr. destruct (V r Hr) as (A1 & A2 & A3 & A4). destruct (V' r Hr) as (B1 & B2 & B3 & B4). cbv zeta in *.
    rewrite (mask2_shape _ _ (indicator f) f m eq_refl) in *. set (l := filter _ (pairs per shape (offset roi r))) in *.
    assert (X : forall p q, In (p, q) l -> pixel shape p /\ pixel shape q).
    { intros p q H. unfold l in H. apply seen_In in H. tauto. }
    split; [congruence|]. rewrite A1, B1, B3. split; [|split].
    + apply sum_nonneg. intros [p q] _. destruct (same_label _ _ _); discriminate.
    + apply sum_le. intros [p q] H. destruct (X _ _ H) as [P Q]. cbn [fst snd]. rewrite (indicator_qn shape f p), (indicator_qn shape g q) by auto.
      unfold same_label. cbn [fst snd]. destruct (Z.eqb_spec (zn (i_vals f) p) 0) as [Z|N]; cbn [negb andb].
      * destruct (_ =? 0); discriminate.
      * destruct (Z.eqb_spec (zn (i_vals f) p) (zn (i_vals g) q)) as [EQ|NE]; [|destruct (_ =? 0); discriminate].
        rewrite <- EQ. rewrite (proj2 (Z.eqb_neq _ _) N). discriminate.
    + apply sum_le. intros [p q] H. destruct (X _ _ H) as [P Q]. cbn [fst snd]. rewrite (indicator_qn shape f p), (indicator_qn shape g q) by auto.
      destruct (_ =? 0), (_ =? 0); discriminate.
  - intros Bf Bg. assert (SD : same_data (Ok e) (Ok e')).
    { apply (same_data_at roi e e'); auto. intros r Hr. destruct (V r Hr) as (A1 & A2 & A3 & A4). destruct (V' r Hr) as (B1 & B2 & B3 & B4). cbv zeta in *.
      rewrite (mask2_shape _ _ (indicator f) f m eq_refl) in *. set (l := filter _ (pairs per shape (offset roi r))) in *.
      assert (X1 : first_at e' r = first_at e r).
      { rewrite A1, B1. apply sum_ext. intros [p q] H. unfold l in H. apply seen_In in H. destruct H as (P & Q & _). cbn [fst snd].
        rewrite (indicator_qn shape f p), (indicator_qn shape g q) by auto. unfold same_label. cbn [fst snd].
        assert (Vf : zn (i_vals f) p = 0 \/ zn (i_vals f) p = 1).
        { apply Bf. unfold zn. apply nth_In. destruct Hf as [_ L]. unfold pixel, lenZ in *. lia. }
        assert (Vg : zn (i_vals g) q = 0 \/ zn (i_vals g) q = 1).
        { apply Bg. unfold zn. apply nth_In. destruct Hg as [_ L]. unfold pixel, lenZ in *. lia. }
        destruct Vf as [-> | ->], Vg as [-> | ->]; cbn; try ring. }
      assert (X3 : norm_at e' r = norm_at e r) by congruence.
      unfold same_at. rewrite A4, B4, A2, B2, X1, X3. auto. }
    destruct SD as (x & x' & Ex & Ex' & D1 & D2 & D3 & D4). injection Ex as <-. injection Ex' as <-. auto.
Qed.
