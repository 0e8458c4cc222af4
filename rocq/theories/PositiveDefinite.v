(** * PositiveDefinite: proofs of C148 *)

From Coq Require Import ZArith QArith Qcanon Qreals Reals List Bool Lia Lra.
From Verif Require Import Base BaseLemmas SpecCluster SpecDilate SpecSymmetry ClusterGeom DerivedCluster DerivedDilate Path SpecPath Ensemble SpecEnsemble SpecAlgebra SpecRelations
  SpecPositive EnsembleSums EnsembleTop DerivedEnsemble DerivedAlgebra DerivedRelations EnsembleRun DerivedRun.
Import ListNotations.
Open Scope Z_scope.

(** The pixel at an offset. *)
Definition at_ (shape : list Z) (x : list Z) (p : Z) : Z :=
  match find (fun q => movedb true shape (coords shape p) x (coords shape q)) (pixels shape) with Some q => q | None => 0 end.

Lemma at_spec : forall shape x p, Forall (fun n => 1 <= n) shape -> pixel shape p -> length x = length shape ->
  pixel shape (at_ shape x p) /\ moved true shape (coords shape p) x (coords shape (at_ shape x p)).
Proof.
  intros shape x p HP Hp Hx. unfold at_. destruct (find _ _) as [q|] eqn:E.
  - apply find_some in E. destruct E as [E1 E2]. apply zrange_In in E1. split; [exact E1|]. apply movedb_iff. auto.
  - exfalso. destruct (two_pixels shape p x HP Hp Hx) as (q & Hq & M).
    assert (IN : In q (pixels shape)) by (apply zrange_In; exact Hq). pose proof (find_none _ _ E q IN) as F. cbn in F.
    apply movedb_iff in M. congruence.
Qed.

Lemma at_unique : forall shape x p q, Forall (fun n => 1 <= n) shape -> pixel shape p -> length x = length shape -> pixel shape q ->
  moved true shape (coords shape p) x (coords shape q) -> at_ shape x p = q.
Proof.
  intros shape x p q HP Hp Hx Hq M. destruct (at_spec shape x p HP Hp Hx) as [A B].
  apply (coords_inj shape); auto. { apply image_pos; auto. } eapply moved_functional; eauto.
Qed.

Lemma sum_pairs_places : forall shape x d F, Forall (fun n => 1 <= n) shape -> length x = length shape -> length d = length shape ->
  sum_over (pairs true shape d) F = sum_over (pixels shape) (fun p => F (at_ shape x p, at_ shape (plus_offset x d) p)).
Proof.
  intros shape x d F HP Hx Hd. rewrite sum_pairs_total.
  assert (LP : length (plus_offset x d) = length shape) by (unfold plus_offset; rewrite map_length, combine_length; lia).
  symmetry. apply (sum_pixels_moved shape shape (rolls x shape)).
  - apply rolls_matching; auto. intros. apply image_pos; auto.
  - intros p q (Hp & Hq & M). rewrite (at_unique shape x p q) by auto.
    destruct (at_spec shape d q HP Hq Hd) as [A B]. symmetry.
    rewrite (sum_pairs_at shape d F q HP Hq (at_ shape d q) A B). f_equal. f_equal. symmetry.
    apply at_unique; auto. eapply moved_plus; eauto.
Qed.

(** A form of sums over pairs is a sum, over the pixels, of forms. *)
Lemma form_places : forall roi shape l el (K : Z * Z -> Qc) N, shapes true roi shape -> leads roi l el ->
  form l el (fun r => sum_over (pairs true shape (offset roi r)) K / N)%Qc =
  (sum_over (pixels shape) (fun p => sum_over (list_prod l l) (fun w => fst (fst w) * fst (snd w) * K (at_ shape (snd (fst w)) p, at_ shape (snd (snd w)) p))) / N)%Qc.
Proof.
  intros roi shape l el K N HS [L1 L2]. rewrite sum_swap. unfold Qcdiv at 2. rewrite Qcmult_comm, <- sum_scale. unfold form. apply sum_ext.
  intros [[c x] [d y]] IN. apply in_prod_iff in IN. destruct IN as [I1 I2]. cbn [fst snd]. destruct (L2 _ _ I1 I2) as [P E]. cbn [fst snd] in P, E.
  assert (LR : length roi = length shape) by apply HS.
  rewrite sum_scale. rewrite (sum_pairs_places shape x (offset roi (el x y)) K).
  - rewrite <- E. unfold Qcdiv. ring.
  - apply (shape_pos _ _ _ HS).
  - rewrite <- LR. apply (L1 _ I1).
  - rewrite offset_length. apply HS.
Qed.

Lemma div_nonneg : forall s n, (0 < n)%Qc -> (0 <= s)%Qc -> (0 <= s / n)%Qc.
Proof. intros s n Hn Hs. replace 0%Qc with (0 / n)%Qc; [apply div_mono; auto|]. unfold Qcdiv. ring. Qed.

Lemma quotient_pos : forall s n, (0 < n)%Qc -> quotient s n = (s / n)%Qc.
Proof. intros s n H. unfold quotient. destruct (Qceq_b n 0) eqn:E; auto. apply Qceq_b_iff in E. subst. discriminate. Qed.

Lemma form_ext : forall l el s t, (forall cx dy, In cx l -> In dy l -> s (el (snd cx) (snd dy)) = t (el (snd cx) (snd dy))) -> form l el s = form l el t.
Proof. intros l el s t H. unfold form. apply sum_ext. intros [a b] IN. apply in_prod_iff in IN. cbn [fst snd]. rewrite H by tauto. reflexivity. Qed.

Lemma form_sum : forall A l el (fs : list A) (s : A -> Z -> Qc) N,
  form l el (fun r => sum_over fs (fun f => s f r) / N)%Qc = sum_over fs (fun f => form l el (fun r => s f r / N)%Qc).
Proof.
  intros A l el fs s N. unfold form. rewrite sum_swap. apply sum_ext. intros w _. rewrite sum_scale. f_equal. unfold Qcdiv.
  rewrite Qcmult_comm, <- sum_scale. apply sum_ext. intros. ring.
Qed.

(** ** One image *)

Lemma S2_form : forall roi shape v l el N, shapes true roi shape -> leads roi l el -> (0 < N)%Qc ->
  (0 <= form l el (fun r => sum_over (pairs true shape (offset roi r)) (fun pq => qn v (fst pq) * qn v (snd pq)) / N))%Qc.
Proof.
  intros roi shape v l el N HS HL HN.
  rewrite (form_places roi shape l el _ _ HS HL). apply div_nonneg; auto. apply sum_nonneg. intros p _.
  set (u := fun w : Qc * list Z => (fst w * qn v (at_ shape (snd w) p))%Qc).
  rewrite (sum_ext _ _ _ (fun w => u (fst w) * u (snd w))%Qc) by (intros w _; unfold u; cbn [fst snd]; ring).
  rewrite sum_product. apply Qc_sq_nonneg.
Qed.

(** Coefficients of equal labels. *)
Lemma equal_labels_nonneg : forall (A : Type) (c : A -> Qc) (v : A -> Z) (l : list A),
  (0 <= sum_over (list_prod l l) (fun w => c (fst w) * c (snd w) * (if negb (v (fst w) =? 0) && (v (fst w) =? v (snd w)) then 1 else 0)))%Qc.
Proof.
  intros A c v l. set (V := nodup Z.eq_dec (map v l)).
  rewrite (sum_ext _ _ _ (fun w => sum_over V (fun k => (if negb (k =? 0) && (v (fst w) =? k) then c (fst w) else 0) * (if negb (k =? 0) && (v (snd w) =? k) then c (snd w) else 0)))%Qc).
  - rewrite sum_swap. apply sum_nonneg. intros k _.
    rewrite (sum_product _ _ l l (fun a => if negb (k =? 0) && (v a =? k) then c a else 0%Qc) (fun a => if negb (k =? 0) && (v a =? k) then c a else 0%Qc)). apply Qc_sq_nonneg.
  - intros [a b] IN. apply in_prod_iff in IN. cbn [fst snd]. symmetry.
    rewrite (sum_ext _ V _ (fun k => if k =? v a then c a * c b * (if negb (v a =? 0) && (v a =? v b) then 1 else 0) else 0)%Qc).
    + apply (sum_single V (fun k => k =? v a) (fun k => c a * c b * (if negb (v a =? 0) && (v a =? v b) then 1 else 0))%Qc (v a)).
      * apply NoDup_nodup.
      * apply nodup_In. apply in_map. tauto.
      * intros k _. apply Z.eqb_eq.
    + intros k _. rewrite (Z.eqb_sym k (v a)). destruct (v a =? k) eqn:E.
      * apply Z.eqb_eq in E. subst k. rewrite (Z.eqb_sym (v b)). destruct (v a =? 0), (v a =? v b); cbn [negb andb]; ring.
      * rewrite andb_false_r. ring.
Qed.

Lemma C2_form : forall roi shape v l el N, shapes true roi shape -> leads roi l el -> (0 < N)%Qc ->
  (0 <= form l el (fun r => sum_over (pairs true shape (offset roi r)) (fun pq => if same_label v v pq then 1 else 0) / N))%Qc.
Proof.
  intros roi shape v l el N HS HL HN.
  rewrite (form_places roi shape l el _ _ HS HL). apply div_nonneg; auto. apply sum_nonneg. intros p _.
  exact (equal_labels_nonneg _ fst (fun w => zn v (at_ shape (snd w) p)) l).
Qed.

Lemma hh_form : forall roi shape v l el N, shapes true roi shape -> leads roi l el -> (0 < N)%Qc -> total l = 0%Qc ->
  (form l el (fun r => sum_over (pairs true shape (offset roi r)) (sqdiff v) / N) <= 0)%Qc.
Proof.
  intros roi shape x l el N HS HL HN HT.
  rewrite (form_places roi shape l el _ _ HS HL). replace 0%Qc with (0 / N)%Qc by (unfold Qcdiv; ring). apply div_mono; auto.
  rewrite <- (sum_zero _ (pixels shape)). apply sum_le. intros p _.
  set (v := fun w : Qc * list Z => qn x (at_ shape (snd w) p)).
  rewrite (sum_ext _ _ _ (fun w => (fst (fst w) * v (fst w) * v (fst w)) * fst (snd w) + (fst (fst w) * (fst (snd w) * v (snd w) * v (snd w)) + - (1 + 1) * ((fst (fst w) * v (fst w)) * (fst (snd w) * v (snd w)))))%Qc)
    by (intros w _; unfold sqdiff; cbn [fst snd]; fold (v (fst w)); fold (v (snd w)); ring).
  rewrite !sum_plus, sum_scale.
  rewrite (sum_product _ _ l l (fun w => fst w * v w * v w)%Qc fst), (sum_product _ _ l l fst (fun w => fst w * v w * v w)%Qc), (sum_product _ _ l l (fun w => fst w * v w)%Qc (fun w => fst w * v w)%Qc).
  fold (total l). rewrite HT. set (m := sum_over l (fun w => fst w * v w)%Qc). set (a := sum_over l _).
  replace (a * 0 + (0 * a + - (1 + 1) * (m * m)))%Qc with (- ((1 + 1) * (m * m)))%Qc by ring.
  replace 0%Qc with (- 0)%Qc by ring. apply Qcopp_le_compat. replace 0%Qc with (0 + 0)%Qc by ring.
  replace ((1 + 1) * (m * m))%Qc with (m * m + m * m)%Qc by ring. apply Qc_add_le; apply Qc_sq_nonneg.
Qed.

(** ** Ensembles *)

Definition answer (st : stat) (q : Qc) : value := match st with S_heightheight => root (Exact q) | _ => Exact q end.
Definition size_all {A} (l : list (img A)) : Qc := sum_over l (fun f => zq (zprod (i_shape f))).

Lemma size_pos : forall A roi (l : list (img A)), images roi l -> (0 < size_all l)%Qc.
Proof.
  intros A roi l [HL HI]. unfold size_all. rewrite <- zq_0. destruct l as [|f l]; [congruence|]. rewrite sum_cons.
  assert (P : forall g, In g (f :: l) -> 0 < zprod (i_shape g)) by (intros g Hg; apply len_pos; apply (shape_pos _ _ _ (proj1 (HI g Hg)))).
  apply Qclt_le_trans with (zq (zprod (i_shape f))). { apply zq_lt. apply P. left; auto. }
  rewrite <- (Qcplus_0_r (zq (zprod (i_shape f)))) at 1. apply Qc_add_le; [apply Qcle_refl|]. apply sum_nonneg. intros g Hg. rewrite <- zq_0. apply zq_le. apply Z.lt_le_incl. apply P. right; auto.
Qed.

Lemma run_pairs : forall A asrt var roi (l : list (img A)) e0 (mk : img A -> call) (K : img A -> Z * Z -> Qc) st, images roi l -> ensemble asrt roi true var = Ok e0 ->
  (forall f, stat_of (mk f) = st) ->
  (forall f, In f l -> exists ec, fresh asrt roi true var (mk f) = Ok ec /\ forall r, pixel roi r ->
     first_at ec r = sum_over (pairs true (i_shape f) (offset roi r)) (K f) /\ norm_at ec r = zq (zprod (i_shape f))) ->
  exists e, run asrt (map mk l) e0 = Ok e /\
    forall r, pixel roi r -> result_at e r = answer st (sum_over l (fun f => sum_over (pairs true (i_shape f) (offset roi r)) (K f)) / size_all l)%Qc.
Proof.
  intros A asrt var roi l e0 mk K st HI HE HM HF. pose proof (size_pos _ _ _ HI) as SP. destruct HI as [HL HI].
  assert (HR : Forall (fun n => 0 <= n) roi).
  { destruct l as [|f l]; [congruence|]. destruct (HI f (or_introl eq_refl)) as [(_ & _ & H & _) _]. eapply Forall_impl; [|exact H]; cbn; intros; lia. }
  destruct (add_runs asrt roi true var e0 (map mk l) HR HE) as (e & H).
  { exists st. intros c Hc. apply in_map_iff in Hc. destruct Hc as (f & <- & _). apply HM. }
  { intros c Hc. apply in_map_iff in Hc. destruct Hc as (f & <- & Hf). destruct (HF f Hf) as (ec & E & _). eauto. }
  exists e. split; auto. intros r Hr.
  destruct (add_sum asrt roi true var e0 _ e HR HE H) as (SH & es & F2 & SD). destruct (SD r Hr) as (D1 & _ & D3).
  assert (Y : forall (G : ens -> Qc) (T : img A -> Qc), (forall f ec, In f l -> fresh asrt roi true var (mk f) = Ok ec -> G ec = T f) ->
    sum_over es G = sum_over l T).
  { intros G T HG. rewrite (sum_over_fresh _ _ _ _ F2). rewrite sum_map. apply sum_ext. intros f IN.
    destruct (HF f IN) as (ec & Ec & _). rewrite Ec. auto. }
  assert (E1 : first_at e r = sum_over l (fun f => sum_over (pairs true (i_shape f) (offset roi r)) (K f))).
  { rewrite D1. apply Y. intros f ec IN Ec. destruct (HF f IN) as (ec' & Ec' & V). rewrite Ec in Ec'. injection Ec' as <-. apply (V r Hr). }
  assert (E3 : norm_at e r = size_all l).
  { rewrite D3. apply Y. intros f ec IN Ec. destruct (HF f IN) as (ec' & Ec' & V). rewrite Ec in Ec'. injection Ec' as <-. apply (V r Hr). }
  assert (ST : e_stat e = st).
  { destruct (ensemble_inv _ _ _ _ _ HE) as (k0 & k1 & k2 & HK & _). pose proof (ok0 asrt true var roi k0 k1 k2 HR HK e0 HE) as O.
    destruct (rev (map mk l)) as [|c rr] eqn:ER.
    - apply (f_equal (@rev call)) in ER. rewrite rev_involutive in ER. destruct l; [congruence|discriminate ER].
    - apply (f_equal (@rev call)) in ER. rewrite rev_involutive in ER. cbn [rev] in ER.
      assert (IC : In c (map mk l)) by (rewrite ER; apply in_or_app; right; left; auto). apply in_map_iff in IC. destruct IC as (f & Ef & _).
      rewrite <- (HM f), Ef. rewrite ER in H. eapply run_stat with (k0 := k0) (k1 := k1) (k2 := k2); eauto. apply O. }
  destruct SH as (L1 & L2 & L3 & L4). unfold pixel in Hr.
  assert (RA : result_at e r = answer st (first_at e r / safe (norm_at e r))%Qc).
  { unfold result_at. apply nth_error_nth. unfold result. rewrite ST. rewrite nth_error_map, nth_error_combine.
    unfold data_first, norm in L1, L3. rewrite !qn_nth_error by lia. unfold answer. destruct st; reflexivity. }
  rewrite RA, E1, E3. rewrite safe_pos by auto. reflexivity.
Qed.

Lemma S2_definite : forall asrt var roi e0 fs, ensemble asrt roi true var = Ok e0 -> images roi fs ->
  exists e s, run asrt (autocorrelations fs) e0 = Ok e /\ (forall r, pixel roi r -> result_at e r = Exact (s r)) /\
    forall l el, leads roi l el -> (0 <= form l el s)%Qc.
Proof.
  intros asrt var roi e0 fs HE HI.
  destruct (run_pairs _ asrt var roi fs e0 (fun f => CallS2 f f None) (fun f pq => qn (i_vals f) (fst pq) * qn (i_vals f) (snd pq))%Qc S_S2 HI HE) as (e & E & V); auto.
  { intros f Hf. destruct (proj2 HI f Hf) as [HS Hi]. destruct (S2_periodic asrt var roi (i_shape f) f f HS Hi Hi) as (ec & Ec & _ & W). exists ec. split; auto. intros r Hr. destruct (W r Hr) as (A & B & _). auto. }
  eexists e, _. split; [exact E|]. split; [exact V|]. intros l el HL.
  rewrite (form_sum _ l el fs (fun f r => sum_over (pairs true (i_shape f) (offset roi r)) (fun pq => qn (i_vals f) (fst pq) * qn (i_vals f) (snd pq))%Qc)).
  apply sum_nonneg. intros f Hf. apply S2_form; auto; [apply (proj2 HI f Hf)|apply (size_pos _ _ _ HI)].
Qed.

Lemma C2_definite : forall asrt var roi e0 fs, ensemble asrt roi true var = Ok e0 -> images roi fs ->
  exists e s, run asrt (cluster_correlations fs) e0 = Ok e /\ (forall r, pixel roi r -> result_at e r = Exact (s r)) /\
    forall l el, leads roi l el -> (0 <= form l el s)%Qc.
Proof.
  intros asrt var roi e0 fs HE HI.
  destruct (run_pairs _ asrt var roi fs e0 (fun f => CallC2 f f None) (fun f pq => if same_label (i_vals f) (i_vals f) pq then 1 else 0)%Qc S_C2 HI HE) as (e & E & V); auto.
  { intros f Hf. destruct (proj2 HI f Hf) as [HS Hi]. destruct (C2_periodic asrt var roi (i_shape f) f f HS Hi Hi) as (ec & Ec & _ & W). exists ec. split; auto. intros r Hr. destruct (W r Hr) as (A & B & _). split; auto.
    rewrite A, <- sum_filter, sum_one. reflexivity. }
  eexists e, _. split; [exact E|]. split; [exact V|]. intros l el HL.
  rewrite (form_sum _ l el fs (fun f r => sum_over (pairs true (i_shape f) (offset roi r)) (fun pq => if same_label (i_vals f) (i_vals f) pq then 1 else 0)%Qc)).
  apply sum_nonneg. intros f Hf. apply C2_form; auto; [apply (proj2 HI f Hf)|apply (size_pos _ _ _ HI)].
Qed.

Lemma hh_run : forall asrt var roi e0 fs, ensemble asrt roi true var = Ok e0 -> images roi fs ->
  exists e, run asrt (height_calls fs) e0 = Ok e /\ forall r, pixel roi r ->
    result_at e r = Root (sum_over fs (fun f => sum_over (pairs true (i_shape f) (offset roi r)) (sqdiff (i_vals f))) / size_all fs)%Qc.
Proof.
  intros asrt var roi e0 fs HE HI.
  destruct (run_pairs _ asrt var roi fs e0 (fun f => CallHH f None) (fun f => sqdiff (i_vals f)) S_heightheight HI HE) as (e & E & V); auto.
  - intros f Hf. destruct (proj2 HI f Hf) as [HS Hi]. destruct (hh_periodic asrt var roi (i_shape f) f HS Hi) as (ec & Ec & _ & W). exists ec. split; auto. intros r Hr. destruct (W r Hr) as (A & B & _). auto.
  - exists e. split; auto. intros r Hr. rewrite (V r Hr). unfold answer, root. set (q := (_ / _)%Qc).
    assert (Q : (0 <= q)%Qc).
    { apply div_nonneg; [apply (size_pos _ _ _ HI)|]. apply sum_nonneg. intros. apply sum_nonneg. intros. apply Qc_sq_nonneg. }
    destruct (Qclt_b q 0) eqn:L; auto. apply Qclt_b_iff in L. exfalso. apply (Qclt_not_le _ _ L). auto.
Qed.

Lemma hh_definite : forall asrt var roi e0 fs, ensemble asrt roi true var = Ok e0 -> images roi fs ->
  exists e s, run asrt (height_calls fs) e0 = Ok e /\ (forall r, pixel roi r -> result_at e r = Root (s r)) /\
    forall l el, leads roi l el -> total l = 0%Qc -> (form l el s <= 0)%Qc.
Proof.
  intros asrt var roi e0 fs HE HI. destruct (hh_run asrt var roi e0 fs HE HI) as (e & E & V).
  eexists e, _. split; [exact E|]. split; [exact V|]. intros l el HL HT.
  rewrite (form_sum _ l el fs (fun f r => sum_over (pairs true (i_shape f) (offset roi r)) (sqdiff (i_vals f)))).
  rewrite <- (sum_zero _ fs). apply sum_le. intros f Hf. apply hh_form; auto; [apply (proj2 HI f Hf)|apply (size_pos _ _ _ HI)].
Qed.

(** The triangle inequality from that of the sums of products. *)
Lemma triangle_squares : forall a b c x : R, (0 <= a)%R -> (0 <= b)%R -> (c = a + b + 2 * x)%R -> (x * x <= a * b)%R -> (sqrt c <= sqrt a + sqrt b)%R.
Proof.
  intros a b c x Ha Hb -> Hx. pose proof (sqrt_pos a) as Pa. pose proof (sqrt_pos b) as Pb.
  assert (X : (x <= sqrt a * sqrt b)%R).
  { rewrite <- sqrt_mult by auto. apply Rle_trans with (Rabs x); [apply Rle_abs|]. rewrite <- sqrt_Rsqr_abs. apply sqrt_le_1_alt. exact Hx. }
  rewrite <- (sqrt_square (sqrt a + sqrt b)) by lra. apply sqrt_le_1_alt.
  replace ((sqrt a + sqrt b) * (sqrt a + sqrt b))%R with (sqrt a * sqrt a + sqrt b * sqrt b + 2 * (sqrt a * sqrt b))%R by ring.
  rewrite !sqrt_sqrt by auto. lra.
Qed.

Definition qr (q : Qc) : R := Q2R (this q).
Lemma qr_plus : forall a b, qr (a + b) = (qr a + qr b)%R.
Proof. intros. unfold qr. rewrite <- Q2R_plus. apply Qeq_eqR. apply Qred_correct. Qed.
Lemma qr_mult : forall a b, qr (a * b) = (qr a * qr b)%R.
Proof. intros. unfold qr. rewrite <- Q2R_mult. apply Qeq_eqR. apply Qred_correct. Qed.
Lemma qr_le : forall a b, (a <= b)%Qc -> (qr a <= qr b)%R.
Proof. intros. apply Qle_Rle. auto. Qed.
Lemma qr_0 : qr 0 = 0%R.
Proof. unfold qr. cbn. apply RMicromega.Q2R_0. Qed.

Lemma sum_flat : forall A B (l : list A) (g : A -> list B) F, sum_over (flat_map g l) F = sum_over l (fun a => sum_over (g a) F).
Proof. induction l as [|a l IH]; intros; [reflexivity|]. cbn [flat_map]. rewrite sum_app, IH, sum_cons. reflexivity. Qed.

Lemma hh_triangle : forall asrt var roi e0 fs, ensemble asrt roi true var = Ok e0 -> images roi fs ->
  exists e, run asrt (height_calls fs) e0 = Ok e /\
    forall r1 r2 r3, pixel roi r1 -> pixel roi r2 -> pixel roi r3 -> offset roi r3 = plus_offset (offset roi r1) (offset roi r2) ->
      (real (result_at e r3) <= real (result_at e r1) + real (result_at e r2))%R.
Proof.
  intros asrt var roi e0 fs HE HI. destruct (hh_run asrt var roi e0 fs HE HI) as (e & E & V). exists e. split; auto.
  intros r1 r2 r3 P1 P2 P3 EO. rewrite (V r1 P1), (V r2 P2), (V r3 P3). cbn [real].
  pose proof (size_pos _ _ _ HI) as HN. destruct HI as [_ HI]. set (N := size_all fs) in *.
  set (d1 := offset roi r1) in *. set (d2 := offset roi r2) in *.
  set (W := flat_map (fun f => map (pair f) (pixels (i_shape f))) fs).
  assert (SW : forall T : img Qc * Z -> Qc, sum_over W T = sum_over fs (fun f => sum_over (pixels (i_shape f)) (fun p => T (f, p)))).
  { intros T. unfold W. rewrite sum_flat. apply sum_ext. intros f _. apply sum_map. }
  assert (LO : forall f r, In f fs -> length (offset roi r) = length (i_shape f)) by (intros f r Hf; rewrite offset_length; apply (proj1 (HI f Hf))).
  assert (HPO : forall f, In f fs -> Forall (fun n => 1 <= n) (i_shape f)) by (intros f Hf; apply (shape_pos _ _ _ (proj1 (HI f Hf)))).
  set (z := fun shape : list Z => map (fun _ => 0) shape).
  assert (PZ : forall shape d, length d = length shape -> plus_offset (z shape) d = d).
  { clear. unfold plus_offset. induction shape as [|n s IH]; intros [|x d] H; cbn in *; try discriminate; auto. f_equal. apply IH. lia. }
  set (val := fun (d : list Z) (w : img Qc * Z) => qn (i_vals (fst w)) (at_ (i_shape (fst w)) d (snd w))).
  set (F := fun w => (val d1 w - val (z (i_shape (fst w))) w)%Qc). set (G := fun w => (val (plus_offset d1 d2) w - val d1 w)%Qc).
  assert (S1 : sum_over fs (fun f => sum_over (pairs true (i_shape f) d1) (sqdiff (i_vals f))) = sum_over W (fun w => F w * F w)%Qc).
  { rewrite SW. apply sum_ext. intros f Hf. rewrite (sum_pairs_places (i_shape f) (z (i_shape f)) d1 _ (HPO f Hf) (map_length _ _) (LO f r1 Hf)).
    rewrite PZ by (apply (LO f); auto). reflexivity. }
  assert (S2 : sum_over fs (fun f => sum_over (pairs true (i_shape f) d2) (sqdiff (i_vals f))) = sum_over W (fun w => G w * G w)%Qc).
  { rewrite SW. apply sum_ext. intros f Hf. rewrite (sum_pairs_places (i_shape f) d1 d2 _ (HPO f Hf) (LO f r1 Hf) (LO f r2 Hf)). reflexivity. }
  assert (S3 : sum_over fs (fun f => sum_over (pairs true (i_shape f) (offset roi r3)) (sqdiff (i_vals f))) = sum_over W (fun w => F w * F w + (G w * G w + (1 + 1) * (F w * G w)))%Qc).
  { rewrite SW. apply sum_ext. intros f Hf. rewrite (sum_pairs_places (i_shape f) (z (i_shape f)) (offset roi r3) _ (HPO f Hf) (map_length _ _) (LO f r3 Hf)).
    rewrite PZ by (apply (LO f); auto). rewrite EO. fold d1 d2. apply sum_ext. intros p _. unfold sqdiff, F, G, val. cbn [fst snd]. ring. }
  rewrite S1, S2, S3.
  rewrite !sum_plus, sum_scale. pose proof (cauchy _ W F G) as CY.
  assert (A0 : (0 <= sum_over W (fun w => F w * F w))%Qc) by (apply sum_nonneg; intros; apply Qc_sq_nonneg).
  assert (B0 : (0 <= sum_over W (fun w => G w * G w))%Qc) by (apply sum_nonneg; intros; apply Qc_sq_nonneg).
  set (a := sum_over W (fun p => F p * F p)%Qc) in *. set (b := sum_over W (fun p => G p * G p)%Qc) in *. set (x := sum_over W (fun p => F p * G p)%Qc) in *.
  change (sqrt (qr ((a + (b + (1 + 1) * x)) / N)) <= sqrt (qr (a / N)) + sqrt (qr (b / N)))%R.
  apply (triangle_squares _ _ _ (qr (x / N))).
  - rewrite <- qr_0. apply qr_le. apply div_nonneg; auto.
  - rewrite <- qr_0. apply qr_le. apply div_nonneg; auto.
  - replace ((a + (b + (1 + 1) * x)) / N)%Qc with (a / N + b / N + (x / N + x / N))%Qc by (unfold Qcdiv; ring). rewrite !qr_plus. ring.
  - rewrite <- !qr_mult. apply qr_le. assert (N0 : N <> 0%Qc) by (intros Z; rewrite Z in HN; discriminate).
    replace (x / N * (x / N))%Qc with (x * x / (N * N))%Qc by (field; auto). replace (a / N * (b / N))%Qc with (a * b / (N * N))%Qc by (field; auto).
    apply div_mono; auto. replace 0%Qc with (0 * N)%Qc by ring. apply Qcmult_lt_compat_r; auto.
Qed.

Definition number (v : value) : Qc := match v with Exact q => q | Root q => q | NaN => 0%Qc end.
