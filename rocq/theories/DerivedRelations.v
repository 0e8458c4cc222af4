(** * DerivedRelations: proofs of C89-C91 *)

From Coq Require Import ZArith QArith Qcanon List Bool Lia.
From Verif Require Import Base BaseLemmas SpecCluster SpecDilate ClusterGeom DerivedCluster DerivedDilate Path SpecPath Ensemble SpecEnsemble SpecAlgebra SpecRelations
  EnsembleSums EnsembleTop DerivedEnsemble DerivedAlgebra.
Import ListNotations.
Open Scope Z_scope.

Lemma zq_nonzero : forall n, 0 < n -> zq n <> 0%Qc.
Proof. intros n H E. rewrite <- zq_0 in E. apply zq_inj in E. lia. Qed.

Lemma sum_const : forall A (l : list A) c, sum_over l (fun _ => c) = (c * zq (lenZ l))%Qc.
Proof.
  intros A l c. rewrite <- sum_one, <- sum_scale. apply sum_ext. intros. ring.
Qed.

Lemma pixels_len : forall shape, 0 <= zprod shape -> lenZ (pixels shape) = zprod shape.
Proof. intros shape H. unfold pixels, lenZ. rewrite zrange_length. lia. Qed.

Lemma Exact_inj : forall a b, Exact a = Exact b -> a = b.
Proof. intros a b H. congruence. Qed.

(** ** The complement *)

Lemma S2_complement : forall asrt var roi shape f g, shapes true roi shape -> is_image shape f -> is_image shape g ->
  exists e e', fresh asrt roi true var (CallS2 f g None) = Ok e /\
    fresh asrt roi true var (CallS2 (complement f) (complement g) None) = Ok e' /\
    forall r, pixel roi r -> exists q, result_at e r = Exact q /\
      result_at e' r = Exact (1 - volume_fraction shape f - volume_fraction shape g + q)%Qc.
Proof.
  intros asrt var roi shape f g HS Hf Hg.
  destruct (S2_periodic asrt var roi shape f g HS Hf Hg) as (e & E & _ & V).
  destruct (S2_periodic asrt var roi shape (complement f) (complement g) HS (each_image _ _ _ _ _ Hf) (each_image _ _ _ _ _ Hg)) as (e' & E' & _ & V').
  exists e, e'. split; auto. split; auto. intros r Hr. destruct (V r Hr) as (A1 & A2 & A3). destruct (V' r Hr) as (B1 & B2 & B3).
  eexists. split; [exact A3|]. rewrite B3. f_equal. rewrite A1, B1. pose proof (len_pos shape (shape_pos _ _ _ HS)) as LP.
  rewrite (sum_ext _ _ _ (fun pq => (1 + (-(1)) * qn (i_vals f) (fst pq)) + ((-(1)) * qn (i_vals g) (snd pq) + qn (i_vals f) (fst pq) * qn (i_vals g) (snd pq)))%Qc).
  - rewrite !sum_plus, !sum_scale. rewrite (sum_pairs_fst roi shape r (qn (i_vals f)) HS Hr), (sum_pairs_snd roi shape r (qn (i_vals g)) HS Hr).
    rewrite sum_one, (pairs_periodic_count roi) by auto. unfold volume_fraction. field. apply zq_nonzero; auto.
  - intros [p q] Hpq. cbn [fst snd]. unfold pairs in Hpq. apply filter_In in Hpq. destruct Hpq as [Hpq _]. apply in_prod_iff in Hpq.
    destruct Hpq as [Hp Hq]. unfold pixels in Hp, Hq. apply zrange_In in Hp, Hq. unfold complement, each. cbn [i_vals].
    rewrite !(each_qn _ 0%Qc) by (rewrite ?(proj2 Hf), ?(proj2 Hg); auto). fold (qn (i_vals f) p) (qn (i_vals g) q). ring.
Qed.

(** ** W2 is S2 divided by the mean weight *)

Lemma W2_from_S2 : forall asrt var roi shape w f, shapes true roi shape -> is_image shape w -> is_image shape f ->
  (0 < volume_fraction shape w)%Qc ->
  exists e e', fresh asrt roi true var (CallS2 w f None) = Ok e /\ fresh asrt roi true var (CallW2 w f None) = Ok e' /\
    forall r, pixel roi r -> exists q, result_at e r = Exact q /\ result_at e' r = Exact (q / volume_fraction shape w)%Qc.
Proof.
  intros asrt var roi shape w f HS Hw Hf Hpos.
  destruct (S2_periodic asrt var roi shape w f HS Hw Hf) as (e & E & _ & V).
  destruct (W2_any asrt true var roi shape w f None HS Hw Hf I) as (e' & E' & _ & V').
  exists e, e'. split; auto. split; auto. intros r Hr. destruct (V r Hr) as (A1 & A2 & A3). destruct (V' r Hr) as (B1 & B2 & B3 & B4).
  eexists. split; [exact A3|]. rewrite B4. f_equal.
  pose proof (len_pos shape (shape_pos _ _ _ HS)) as LP. pose proof (zq_nonzero _ LP) as NZ.
  cbn [mask1] in *. unfold zeros in *. cbn [i_vals] in *.
  assert (EF : forall d, filter (seen shape [] (repeat 0 (Z.to_nat (zprod (i_shape w)))) d) (pairs true shape d) = pairs true shape d).
  { intros d. apply filter_all. intros [p q] _. unfold seen. cbn [fst snd]. rewrite zn_repeat0. unfold zn. destruct (Z.to_nat p); reflexivity. }
  rewrite EF in *. rewrite A1, B1, B3. rewrite (sum_pairs_fst roi shape r (qn (i_vals w)) HS Hr).
  assert (SP : (0 < sum_over (pixels shape) (qn (i_vals w)))%Qc).
  { unfold volume_fraction in Hpos. assert (PZ : (0 < zq (zprod shape))%Qc) by (rewrite <- zq_0; apply zq_lt; auto).
    replace (sum_over (pixels shape) (qn (i_vals w))) with ((sum_over (pixels shape) (qn (i_vals w)) / zq (zprod shape)) * zq (zprod shape))%Qc by (field; auto).
    replace 0%Qc with (0 * zq (zprod shape))%Qc by ring. apply Qcmult_lt_compat_r; auto. }
  rewrite safe_pos by auto. unfold volume_fraction. field. split; auto. intros E0. rewrite E0 in SP. discriminate SP.
Qed.

(** ** Cauchy-Schwarz *)

Lemma Qc_sq_nonneg : forall x, (0 <= x * x)%Qc.
Proof.
  intros x. destruct (Qclt_le_dec x 0) as [H|H].
  - replace (x * x)%Qc with ((- x) * (- x))%Qc by ring.
    assert (0 <= - x)%Qc. { replace 0%Qc with (- 0)%Qc by reflexivity. apply Qcopp_le_compat. apply Qclt_le_weak. auto. }
    replace 0%Qc with (0 * - x)%Qc by ring. apply Qcmult_le_compat_r; auto.
  - replace 0%Qc with (0 * x)%Qc by ring. apply Qcmult_le_compat_r; auto.
Qed.

Lemma cauchy : forall A (l : list A) F G,
  (sum_over l (fun x => F x * G x) * sum_over l (fun x => F x * G x) <= sum_over l (fun x => F x * F x) * sum_over l (fun x => G x * G x))%Qc.
Proof.
  intros A l F G.
  assert (P : (0 <= sum_over l (fun x => sum_over l (fun y => (F x * G y - F y * G x) * (F x * G y - F y * G x))))%Qc).
  { apply sum_nonneg. intros. apply sum_nonneg. intros. apply Qc_sq_nonneg. }
  set (a := sum_over l (fun x => F x * F x)%Qc) in *. set (b := sum_over l (fun x => G x * G x)%Qc) in *. set (c := sum_over l (fun x => F x * G x)%Qc) in *.
  rewrite (sum_ext _ l _ (fun x => b * (F x * F x) + (a * (G x * G x) + (- (1 + 1) * c) * (F x * G x)))%Qc) in P.
  - rewrite !sum_plus, !sum_scale in P. fold a b c in P.
    replace (b * a + (a * b + - (1 + 1) * c * c))%Qc with ((1 + 1) * (a * b - c * c))%Qc in P by ring.
    apply Qcnot_lt_le. intros H. apply (Qclt_not_le (((1 + 1) * (a * b - c * c))) 0)%Qc; auto.
    replace (0)%Qc with ((1 + 1) * (a * b - a * b))%Qc by ring.
    rewrite !(Qcmult_comm (1 + 1)%Qc). apply Qcmult_lt_compat_r; [reflexivity|]. unfold Qcminus.
    apply Qclt_minus_iff. replace (a * b + - (a * b) + - (a * b + - (c * c)))%Qc with (c * c + - (a * b))%Qc by ring.
    apply (proj1 (Qclt_minus_iff _ _)). auto.
  - intros x _. rewrite (sum_ext _ l _ (fun y => (F x * F x) * (G y * G y) + ((G x * G x) * (F y * F y) + (- (1 + 1) * (F x * G x)) * (F y * G y)))%Qc) by (intros; ring).
    rewrite !sum_plus, !sum_scale. fold a b c. ring.
Qed.

Lemma pairs_cauchy : forall roi shape r F G, shapes true roi shape -> pixel roi r ->
  let s := sum_over (pairs true shape (offset roi r)) (fun pq => F (fst pq) * G (snd pq))%Qc in
  (s * s <= sum_over (pixels shape) (fun p => F p * F p) * sum_over (pixels shape) (fun p => G p * G p))%Qc.
Proof.
  intros roi shape r F G HS Hr. cbv zeta.
  pose proof (cauchy _ (pairs true shape (offset roi r)) (fun pq => F (fst pq)) (fun pq => G (snd pq))) as H. cbv beta in H.
  rewrite (sum_pairs_fst roi shape r (fun p => F p * F p)%Qc HS Hr), (sum_pairs_snd roi shape r (fun p => G p * G p)%Qc HS Hr) in H. exact H.
Qed.

Lemma div_sq : forall a n, n <> 0%Qc -> (a / n * (a / n) = a * a / (n * n))%Qc.
Proof. intros. field. auto. Qed.

Lemma S2_cauchy : forall asrt var roi shape f g, shapes true roi shape -> is_image shape f -> is_image shape g ->
  exists e ef eg, fresh asrt roi true var (CallS2 f g None) = Ok e /\
    fresh asrt roi true var (CallS2 f f None) = Ok ef /\ fresh asrt roi true var (CallS2 g g None) = Ok eg /\
    forall r r0, pixel roi r -> pixel roi r0 -> zero_offset (offset roi r0) ->
      exists q qf qg, result_at e r = Exact q /\ result_at ef r0 = Exact qf /\ result_at eg r0 = Exact qg /\ (q * q <= qf * qg)%Qc.
Proof.
  intros asrt var roi shape f g HS Hf Hg.
  destruct (S2_periodic asrt var roi shape f g HS Hf Hg) as (e & E & _ & V).
  destruct (S2_periodic asrt var roi shape f f HS Hf Hf) as (ef & Ef & _ & Vf).
  destruct (S2_periodic asrt var roi shape g g HS Hg Hg) as (eg & Eg & _ & Vg).
  exists e, ef, eg. split; auto. split; auto. split; auto. intros r r0 Hr H0 HZ.
  destruct (V r Hr) as (A1 & A2 & A3). destruct (Vf r0 H0) as (B1 & B2 & B3). destruct (Vg r0 H0) as (C1 & C2 & C3).
  do 3 eexists. split; [exact A3|]. split; [exact B3|]. split; [exact C3|].
  assert (LO : length (offset roi r0) = length shape) by (rewrite offset_length; apply HS).
  rewrite A1, B1, C1, !(sum_pairs_zero true shape (offset roi r0)) by (auto; apply HS). cbn [fst snd].
  pose proof (pairs_cauchy roi shape r (qn (i_vals f)) (qn (i_vals g)) HS Hr) as H. cbv zeta in H.
  pose proof (len_pos shape (shape_pos _ _ _ HS)) as LP. pose proof (zq_nonzero _ LP) as NZ.
  rewrite div_sq by auto.
  replace (sum_over (pixels shape) (fun p => qn (i_vals f) p * qn (i_vals f) p) / zq (zprod shape) * (sum_over (pixels shape) (fun p => qn (i_vals g) p * qn (i_vals g) p) / zq (zprod shape)))%Qc
    with (sum_over (pixels shape) (fun p => qn (i_vals f) p * qn (i_vals f) p) * sum_over (pixels shape) (fun p => qn (i_vals g) p * qn (i_vals g) p) / (zq (zprod shape) * zq (zprod shape)))%Qc by (field; auto).
  apply div_mono; auto. rewrite <- zq_mult, <- zq_0. apply zq_lt. nia.
Qed.

Lemma abs_of_squares : forall a b, (0 <= b)%Qc -> (a * a <= b * b)%Qc -> (- b <= a <= b)%Qc.
Proof.
  intros a b Hb H. split; apply Qcnot_lt_le; intros HL.
  - (* a < -b *) apply (Qclt_not_le (b * b) (a * a)%Qc); auto. replace (a * a)%Qc with ((- a) * (- a))%Qc by ring.
    assert (HL' : (b < - a)%Qc). { apply Qclt_minus_iff. replace (- a + - b)%Qc with (- b + - a)%Qc by ring. apply (proj1 (Qclt_minus_iff _ _)). auto. }
    apply Qcle_lt_trans with (b * - a)%Qc.
    + rewrite (Qcmult_comm b (- a)%Qc). apply Qcmult_le_compat_r; auto. apply Qclt_le_weak; auto.
    + apply Qcmult_lt_compat_r; auto. eapply Qcle_lt_trans; eauto.
  - apply (Qclt_not_le (b * b) (a * a)%Qc); auto. apply Qcle_lt_trans with (b * a)%Qc.
    + rewrite (Qcmult_comm b a). apply Qcmult_le_compat_r; auto. apply Qclt_le_weak; auto.
    + apply Qcmult_lt_compat_r; auto. eapply Qcle_lt_trans; eauto.
Qed.

Lemma S2_peak : forall asrt var roi shape f, shapes true roi shape -> is_image shape f ->
  exists e, fresh asrt roi true var (CallS2 f f None) = Ok e /\
    forall r r0, pixel roi r -> pixel roi r0 -> zero_offset (offset roi r0) ->
      exists q q0, result_at e r = Exact q /\ result_at e r0 = Exact q0 /\ (- q0 <= q <= q0)%Qc.
Proof.
  intros asrt var roi shape f HS Hf.
  destruct (S2_cauchy asrt var roi shape f f HS Hf Hf) as (e & e' & e'' & E & E' & E'' & H).
  assert (e' = e) by congruence. assert (e'' = e) by congruence. subst e' e''. exists e. split; auto. intros r r0 Hr H0 HZ.
  destruct (H r r0 Hr H0 HZ) as (q & q0 & q0' & R & R0 & R0' & C). assert (q0' = q0) by congruence. subst q0'.
  exists q, q0. split; auto. split; auto. apply abs_of_squares; auto.
  destruct (S2_periodic asrt var roi shape f f HS Hf Hf) as (e1 & E1 & _ & V1). assert (e1 = e) by congruence. subst e1.
  destruct (V1 r0 H0) as (A1 & A2 & A3). rewrite A3 in R0. apply Exact_inj in R0. rewrite <- R0, A1.
  rewrite (sum_pairs_zero true shape (offset roi r0)); auto; [|apply HS|rewrite offset_length; apply HS]. cbn [fst snd].
  pose proof (len_pos shape (shape_pos _ _ _ HS)) as LP.
  replace 0%Qc with (0 / zq (zprod shape))%Qc by (unfold Qcdiv; ring). apply div_mono; [rewrite <- zq_0; apply zq_lt; auto|].
  apply sum_nonneg. intros. apply Qc_sq_nonneg.
Qed.

(** ** The triangle inequality *)

Lemma two_pixels : forall shape p d, Forall (fun n => 1 <= n) shape -> pixel shape p -> length d = length shape ->
  exists q, pixel shape q /\ moved true shape (coords shape p) d (coords shape q).
Proof.
  intros shape p d HP Hp Hd. assert (HP' : Forall (fun n => 0 < n) shape) by (apply image_pos; auto).
  destruct (moved_total shape (coords shape p) d) as (b & Ib & Mb); auto. { apply coords_inside; auto. }
  destruct (pixel_of_coords shape b Ib) as (q & Hq & Eq). exists q. split; auto. rewrite Eq. auto.
Qed.

Lemma moved_plus : forall shape a d d' b c, moved true shape a d b -> moved true shape b d' c -> moved true shape a (plus_offset d d') c.
Proof.
  induction shape as [|n shape IH]; intros [|x a] [|t d] [|t' d'] [|y b] [|z c] H H'; cbn [moved plus_offset combine map fst snd] in *; try tauto.
  destruct H as [H1 H2], H' as [H1' H2']. split; [|apply (IH a d d' b c); auto].
  rewrite H1', H1, Zplus_mod_idemp_l. f_equal. lia.
Qed.

(** Sums over pairs as sums over the first pixel, the second given as a function. *)
Lemma sum_pairs_at : forall shape d T p, Forall (fun n => 1 <= n) shape -> pixel shape p ->
  forall q, pixel shape q -> moved true shape (coords shape p) d (coords shape q) ->
  sum_over (pixels shape) (fun y => if movedb true shape (coords shape p) d (coords shape y) then T (p, y) else 0%Qc) = T (p, q).
Proof.
  intros shape d T p HP Hp q Hq M. assert (HP' : Forall (fun n => 0 < n) shape) by (apply image_pos; auto).
  apply (sum_single (pixels shape) (fun y => movedb true shape (coords shape p) d (coords shape y)) (fun y => T (p, y)) q).
  - apply zrange_NoDup.
  - unfold pixels. apply zrange_In. exact Hq.
  - intros y Hy. unfold pixels in Hy. apply zrange_In in Hy. rewrite movedb_iff. split.
    + intros M'. apply (coords_inj shape); auto. eapply moved_functional; eauto.
    + intros ->. auto.
Qed.

Lemma sum_pairs_total : forall shape d T, sum_over (pairs true shape d) T =
  sum_over (pixels shape) (fun p => sum_over (pixels shape) (fun y => if movedb true shape (coords shape p) d (coords shape y) then T (p, y) else 0%Qc)).
Proof. intros. unfold pairs. rewrite sum_filter, sum_prod. reflexivity. Qed.

Lemma pairs_triangle : forall roi shape r1 r2 r3 F, shapes true roi shape -> pixel roi r1 -> pixel roi r2 -> pixel roi r3 ->
  offset roi r3 = plus_offset (offset roi r1) (offset roi r2) ->
  (forall p, pixel shape p -> F p = 0%Qc \/ F p = 1%Qc) ->
  let s r := sum_over (pairs true shape (offset roi r)) (fun pq => F (fst pq) * F (snd pq))%Qc in
  (s r1 + s r2 <= sum_over (pixels shape) F + s r3)%Qc.
Proof.
  intros roi shape r1 r2 r3 F HS H1 H2 H3 EO HF s. assert (HP : Forall (fun n => 1 <= n) shape) by apply HS.
  assert (L : forall r, length (offset roi r) = length shape) by (intros; rewrite offset_length; apply HS).
  (* s r2 and the sum of F as sums over the first pixel of the pairs at r1 *)
  assert (E2 : s r2 = sum_over (pairs true shape (offset roi r1)) (fun pq => sum_over (pixels shape) (fun y =>
      if movedb true shape (coords shape (snd pq)) (offset roi r2) (coords shape y) then F (snd pq) * F y else 0))%Qc).
  { unfold s. rewrite sum_pairs_total. cbn [fst snd].
    rewrite (sum_pairs_snd roi shape r1 (fun q => sum_over (pixels shape) (fun y => if movedb true shape (coords shape q) (offset roi r2) (coords shape y) then F q * F y else 0))%Qc HS H1).
    reflexivity. }
  assert (EF : sum_over (pixels shape) F = sum_over (pairs true shape (offset roi r1)) (fun pq => F (snd pq))).
  { symmetry. apply (sum_pairs_snd roi shape r1 F HS H1). }
  assert (E3 : s r3 = sum_over (pairs true shape (offset roi r1)) (fun pq => sum_over (pixels shape) (fun y =>
      if movedb true shape (coords shape (snd pq)) (offset roi r2) (coords shape y) then F (fst pq) * F y else 0))%Qc).
  { unfold s. rewrite !sum_pairs_total. cbn [fst snd]. apply sum_ext. intros p Hp. unfold pixels in Hp. apply zrange_In in Hp.
    destruct (two_pixels shape p (offset roi r1) HP Hp (L r1)) as (q & Hq & Mq).
    destruct (two_pixels shape q (offset roi r2) HP Hq (L r2)) as (t & Ht & Mt).
    pose proof (sum_pairs_at shape (offset roi r1) (fun pq => sum_over (pixels shape) (fun y =>
      if movedb true shape (coords shape (snd pq)) (offset roi r2) (coords shape y) then F (fst pq) * F y else 0))%Qc p HP Hp q Hq Mq) as K1. cbn [fst snd] in K1. rewrite K1.
    pose proof (sum_pairs_at shape (offset roi r2) (fun pq => F p * F (snd pq))%Qc q HP Hq t Ht Mt) as K2. cbn [fst snd] in K2. rewrite K2.
    assert (M3 : moved true shape (coords shape p) (offset roi r3) (coords shape t)) by (rewrite EO; eapply moved_plus; eauto).
    exact (sum_pairs_at shape (offset roi r3) (fun pq => F p * F (snd pq))%Qc p HP Hp t Ht M3). }
  rewrite E2, EF, E3. unfold s. rewrite <- !sum_plus. apply sum_le. intros [p q] Hpq. cbn [fst snd].
  unfold pairs in Hpq. apply filter_In in Hpq. destruct Hpq as [Hpq _]. apply in_prod_iff in Hpq. destruct Hpq as [Hp Hq].
  unfold pixels in Hp, Hq. apply zrange_In in Hp, Hq.
  destruct (two_pixels shape q (offset roi r2) HP Hq (L r2)) as (t & Ht & Mt).
  pose proof (sum_pairs_at shape (offset roi r2) (fun pq => F q * F (snd pq))%Qc q HP Hq t Ht Mt) as K1.
  pose proof (sum_pairs_at shape (offset roi r2) (fun pq => F p * F (snd pq))%Qc q HP Hq t Ht Mt) as K2. cbn [snd] in K1, K2. rewrite K1, K2.
  destruct (HF p Hp) as [-> | ->]; destruct (HF q Hq) as [-> | ->]; destruct (HF t Ht) as [-> | ->]; discriminate.
Qed.

Lemma S2_triangle : forall asrt var roi shape f, shapes true roi shape -> is_image shape f -> two_phase f ->
  exists e, fresh asrt roi true var (CallS2 f f None) = Ok e /\
    forall r1 r2 r3, pixel roi r1 -> pixel roi r2 -> pixel roi r3 ->
      offset roi r3 = plus_offset (offset roi r1) (offset roi r2) ->
      exists q1 q2 q3, result_at e r1 = Exact q1 /\ result_at e r2 = Exact q2 /\ result_at e r3 = Exact q3 /\
        let phi := volume_fraction shape f in (phi - q3 <= (phi - q1) + (phi - q2))%Qc.
Proof.
  intros asrt var roi shape f HS Hf HB. destruct (S2_periodic asrt var roi shape f f HS Hf Hf) as (e & E & _ & V).
  exists e. split; auto. intros r1 r2 r3 H1 H2 H3 EO.
  destruct (V r1 H1) as (A1 & _ & A3). destruct (V r2 H2) as (B1 & _ & B3). destruct (V r3 H3) as (C1 & _ & C3).
  do 3 eexists. split; [exact A3|]. split; [exact B3|]. split; [exact C3|]. cbv zeta. rewrite A1, B1, C1. clear A1 B1 C1 A3 B3 C3.
  pose proof (pairs_triangle roi shape r1 r2 r3 (qn (i_vals f)) HS H1 H2 H3 EO) as T. cbv zeta in T.
  assert (HF : forall p, pixel shape p -> qn (i_vals f) p = 0%Qc \/ qn (i_vals f) p = 1%Qc) by (intros; eapply two_phase_at; eauto).
  specialize (T HF). unfold volume_fraction. pose proof (len_pos shape (shape_pos _ _ _ HS)) as LP.
  set (s1 := sum_over (pairs true shape (offset roi r1)) _) in *. set (s2 := sum_over (pairs true shape (offset roi r2)) _) in *.
  set (s3 := sum_over (pairs true shape (offset roi r3)) _) in *. set (s := sum_over (pixels shape) _) in *. set (N := zq (zprod shape)) in *.
  assert (PN : (0 < N)%Qc) by (unfold N; rewrite <- zq_0; apply zq_lt; auto).
  apply (div_mono _ _ N) in T; auto. apply Qcle_minus_iff in T. apply Qcle_minus_iff.
  replace (s / N - s1 / N + (s / N - s2 / N) + - (s / N - s3 / N))%Qc with ((s + s3) / N + - ((s1 + s2) / N))%Qc; auto.
  unfold Qcdiv. ring.
Qed.

(** A binary image has S2 >= 2 phi - 1. *)
Lemma S2_lower : forall asrt var roi shape f, shapes true roi shape -> is_image shape f -> two_phase f ->
  exists e, fresh asrt roi true var (CallS2 f f None) = Ok e /\
    forall r, pixel roi r -> exists q, result_at e r = Exact q /\ let phi := volume_fraction shape f in (phi + phi - 1 <= q)%Qc.
Proof.
  intros asrt var roi shape f HS Hf HB.
  destruct (S2_complement asrt var roi shape f f HS Hf Hf) as (e & e' & E & E' & V). exists e. split; auto. intros r Hr.
  destruct (V r Hr) as (q & R & R'). exists q. split; auto. cbv zeta.
  destruct (S2_periodic asrt var roi shape (complement f) (complement f) HS (each_image _ _ _ _ _ Hf) (each_image _ _ _ _ _ Hf)) as (e1 & E1 & _ & V1).
  assert (e1 = e') by congruence. subst e1. destruct (V1 r Hr) as (A1 & _ & A3). rewrite A3 in R'. apply Exact_inj in R'.
  pose proof (len_pos shape (shape_pos _ _ _ HS)) as LP.
  apply Qcle_minus_iff. replace (q + - (volume_fraction shape f + volume_fraction shape f - 1))%Qc with (1 - volume_fraction shape f - volume_fraction shape f + q)%Qc by ring.
  rewrite <- R', A1. replace 0%Qc with (0 / zq (zprod shape))%Qc by (unfold Qcdiv; ring). apply div_mono; [rewrite <- zq_0; apply zq_lt; auto|].
  apply sum_nonneg. intros [p p'] Hpq. cbn [fst snd]. unfold pairs in Hpq. apply filter_In in Hpq. destruct Hpq as [Hpq _]. apply in_prod_iff in Hpq.
  destruct Hpq as [Hp Hq]. unfold pixels in Hp, Hq. apply zrange_In in Hp, Hq. unfold complement, each. cbn [i_vals].
  rewrite !(each_qn _ 0%Qc) by (rewrite (proj2 Hf); auto). fold (qn (i_vals f) p) (qn (i_vals f) p').
  destruct (two_phase_at shape f p Hf HB Hp) as [-> | ->]; destruct (two_phase_at shape f p' Hf HB Hq) as [-> | ->]; discriminate.
Qed.

(** ** The sum rule: a region as large as the image *)

Lemma one_offset : forall shape a b, Forall (fun n => 1 <= n) shape -> inside shape a -> inside shape b ->
  exists c, inside shape c /\ forall c', inside shape c' -> (moved true shape a (diff c' (anchor shape)) b <-> c' = c).
Proof.
  induction shape as [|n shape IH]; intros [|x a] [|y b] HP Ha Hb; cbn [inside] in *; try tauto.
  - exists []. split; [exact I|]. intros [|? ?] Hc; cbn in *; tauto.
  - inversion HP as [|? ? P1 P2]; subst. destruct Ha as [A1 A2], Hb as [B1 B2]. destruct (IH a b P2 A2 B2) as (c & Ic & Hc).
    exists ((y - x + (n - 1) / 2) mod n :: c). split; [split; [apply Z.mod_pos_bound; lia|auto]|].
    intros [|z c'] Hc'; cbn [inside] in Hc'; try tauto. destruct Hc' as [C1 C2]. specialize (Hc c' C2).
    unfold diff in *. cbn [anchor map combine fst snd moved]. fold (anchor shape).
    rewrite Hc. set (h := (n - 1) / 2). clearbody h.
    assert (K : y = (x + (z - h)) mod n <-> z = (y - x + h) mod n).
    { split; intros E.
      - symmetry. rewrite E. rewrite <- (Z.mod_small z n) at 2 by lia.
        replace ((x + (z - h)) mod n - x + h) with ((x + (z - h)) mod n + (h - x)) by lia. rewrite Zplus_mod_idemp_l. f_equal. lia.
      - rewrite E. replace (x + ((y - x + h) mod n - h)) with ((y - x + h) mod n + (x - h)) by lia. rewrite Zplus_mod_idemp_l.
        replace (y - x + h + (x - h)) with y by lia. rewrite Z.mod_small; lia. }
    rewrite K. split; [intros [-> ->]; reflexivity|intros E; injection E as -> ->; auto].
Qed.

Lemma all_offsets : forall shape T, Forall (fun n => 1 <= n) shape ->
  sum_over (pixels shape) (fun r => sum_over (pairs true shape (offset shape r)) (T r)) =
  sum_over (list_prod (pixels shape) (pixels shape)) (fun pq =>
    sum_over (filter (fun r => movedb true shape (coords shape (fst pq)) (offset shape r) (coords shape (snd pq))) (pixels shape)) (fun r => T r pq)).
Proof.
  intros shape T HP. rewrite (sum_ext _ (pixels shape) _ (fun r => sum_over (list_prod (pixels shape) (pixels shape))
    (fun pq => if movedb true shape (coords shape (fst pq)) (offset shape r) (coords shape (snd pq)) then T r pq else 0%Qc))).
  - rewrite sum_swap. apply sum_ext. intros pq _. rewrite sum_filter. reflexivity.
  - intros r _. unfold pairs. rewrite sum_filter. reflexivity.
Qed.

Lemma sum_of_offsets : forall shape T, Forall (fun n => 1 <= n) shape ->
  sum_over (pixels shape) (fun r => sum_over (pairs true shape (offset shape r)) T) = sum_over (list_prod (pixels shape) (pixels shape)) T.
Proof.
  intros shape T HP. rewrite (all_offsets shape (fun _ => T)) by auto. apply sum_ext. intros [p q] Hpq. cbn [fst snd].
  apply in_prod_iff in Hpq. destruct Hpq as [Hp Hq]. unfold pixels in Hp, Hq. apply zrange_In in Hp, Hq.
  assert (HP' : Forall (fun n => 0 < n) shape) by (apply image_pos; auto).
  destruct (one_offset shape (coords shape p) (coords shape q) HP) as (c & Ic & Hc); try (apply coords_inside; auto).
  destruct (pixel_of_coords shape c Ic) as (r0 & Hr0 & Er0). rewrite sum_filter.
  apply (sum_single (pixels shape) (fun r => movedb true shape (coords shape p) (offset shape r) (coords shape q)) (fun _ => T (p, q)) r0).
  - apply zrange_NoDup.
  - apply zrange_In. exact Hr0.
  - intros r Hr. apply zrange_In in Hr. rewrite movedb_iff. unfold offset. rewrite Hc by (apply coords_inside; auto). split.
    + intros E. apply (coords_inj shape); auto. congruence.
    + intros ->. auto.
Qed.

Lemma sum_product : forall A B (l : list A) (l' : list B) F G,
  sum_over (list_prod l l') (fun pq => F (fst pq) * G (snd pq))%Qc = (sum_over l F * sum_over l' G)%Qc.
Proof.
  intros. rewrite sum_prod. cbn [fst snd]. rewrite (sum_ext _ l _ (fun x => sum_over l' G * F x)%Qc).
  - rewrite sum_scale. ring.
  - intros x _. rewrite sum_scale. ring.
Qed.

Lemma S2_sum_rule : forall asrt var shape f g, shapes true shape shape -> is_image shape f -> is_image shape g ->
  exists e s, fresh asrt shape true var (CallS2 f g None) = Ok e /\
    (forall r, pixel shape r -> result_at e r = Exact (s r)) /\
    (sum_over (pixels shape) s / zq (zprod shape) = volume_fraction shape f * volume_fraction shape g)%Qc.
Proof.
  intros asrt var shape f g HS Hf Hg. destruct (S2_periodic asrt var shape shape f g HS Hf Hg) as (e & E & _ & V).
  exists e, (fun r => first_at e r / zq (zprod shape))%Qc. split; auto. split; [intros r Hr; apply (V r Hr)|].
  pose proof (len_pos shape (shape_pos _ _ _ HS)) as LP. pose proof (zq_nonzero _ LP) as NZ.
  rewrite (sum_ext _ (pixels shape) _ (fun r => / zq (zprod shape) * first_at e r)%Qc) by (intros; unfold Qcdiv; ring).
  rewrite sum_scale. rewrite (sum_ext _ (pixels shape) _ (fun r => sum_over (pairs true shape (offset shape r)) (fun pq => qn (i_vals f) (fst pq) * qn (i_vals g) (snd pq))%Qc)).
  - rewrite sum_of_offsets by apply HS. rewrite (sum_product _ _ _ _ (qn (i_vals f)) (qn (i_vals g))). unfold volume_fraction. field. auto.
  - intros r Hr. apply zrange_In in Hr. apply (V r Hr).
Qed.
