(** * WienerKhinchin: proofs of C92 *)

From Coq Require Import ZArith QArith Qcanon Qreals Reals List Bool Lia Lra Permutation.
From Verif Require Import Base BaseLemmas SpecCluster SpecDilate ClusterGeom DerivedCluster DerivedDilate Path SpecPath Ensemble SpecEnsemble SpecAlgebra SpecRelations
  EnsembleSums EnsembleTop EnsembleRun DerivedEnsemble DerivedAlgebra DerivedRun DerivedRelations.
From Verif Require Structure SpecStructure StructureProofs StructureProofs2 StructureTop.
Import ListNotations.
Open Scope Z_scope.

(** ** Real sums over lists *)

Definition rsum {A} (l : list A) (F : A -> R) : R := fold_right Rplus 0%R (map F l).

Lemma rsum_cons : forall A (x : A) l F, rsum (x :: l) F = (F x + rsum l F)%R.
Proof. reflexivity. Qed.
Lemma rsum_app : forall A (l l' : list A) F, rsum (l ++ l') F = (rsum l F + rsum l' F)%R.
Proof. induction l as [|x l IH]; intros; [cbn [app]; unfold rsum at 2; cbn [map fold_right]; ring|]. cbn [app]. rewrite !rsum_cons, IH. ring. Qed.
Lemma rsum_ext : forall A (l : list A) F G, (forall x, In x l -> F x = G x) -> rsum l F = rsum l G.
Proof. intros A l F G H. unfold rsum. f_equal. apply map_ext_in. auto. Qed.
Lemma rsum_plus : forall A (l : list A) F G, rsum l (fun x => F x + G x)%R = (rsum l F + rsum l G)%R.
Proof. induction l as [|x l IH]; intros; [unfold rsum; cbn; ring|]. rewrite !rsum_cons, IH. ring. Qed.
Lemma rsum_scale : forall A (l : list A) F c, rsum l (fun x => c * F x)%R = (c * rsum l F)%R.
Proof. induction l as [|x l IH]; intros; [unfold rsum; cbn; ring|]. rewrite !rsum_cons, IH. ring. Qed.
Lemma rsum_zero : forall A (l : list A), rsum l (fun _ => 0%R) = 0%R.
Proof. induction l as [|x l IH]; [reflexivity|]. rewrite rsum_cons, IH. ring. Qed.
Lemma rsum_map : forall A B (g : A -> B) l F, rsum (map g l) F = rsum l (fun x => F (g x)).
Proof. intros. unfold rsum. rewrite map_map. reflexivity. Qed.
Lemma rsum_flat : forall A B (g : A -> list B) l F, rsum (flat_map g l) F = rsum l (fun x => rsum (g x) F).
Proof. induction l as [|x l IH]; intros; [reflexivity|]. cbn [flat_map]. rewrite rsum_app, rsum_cons, IH. reflexivity. Qed.
Lemma rsum_prod : forall A B (l : list A) (l' : list B) F, rsum (list_prod l l') F = rsum l (fun x => rsum l' (fun y => F (x, y))).
Proof. induction l as [|x l IH]; intros; [reflexivity|]. cbn [list_prod]. rewrite rsum_app, rsum_map, IH, rsum_cons. reflexivity. Qed.
Lemma rsum_perm : forall A (l l' : list A) F, Permutation l l' -> rsum l F = rsum l' F.
Proof. intros A l l' F H. induction H; rewrite ?rsum_cons; [reflexivity|rewrite IHPermutation; ring|ring|congruence]. Qed.
Lemma rsum_swap : forall A B (l : list A) (l' : list B) F,
  rsum l (fun x => rsum l' (fun y => F x y)) = rsum l' (fun y => rsum l (fun x => F x y)).
Proof.
  induction l as [|x l IH]; intros; [symmetry; apply rsum_zero|]. rewrite rsum_cons, IH, <- rsum_plus. reflexivity.
Qed.

Lemma rsum_product : forall A B (l : list A) (l' : list B) F G,
  rsum (list_prod l l') (fun pq => F (fst pq) * G (snd pq))%R = (rsum l F * rsum l' G)%R.
Proof.
  intros. rewrite rsum_prod. cbn [fst snd]. rewrite (rsum_ext _ l _ (fun x => rsum l' G * F x)%R).
  - rewrite rsum_scale. ring.
  - intros x _. rewrite rsum_scale. ring.
Qed.

(** ** Rationals as reals *)

Definition qr (x : Qc) : R := Q2R (this x).

Lemma qr_plus : forall a b, qr (a + b)%Qc = (qr a + qr b)%R.
Proof. intros. unfold qr, Qcplus, Q2Qc. cbn [this]. rewrite (Qeq_eqR _ _ (Qred_correct _)). apply Q2R_plus. Qed.
Lemma qr_mult : forall a b, qr (a * b)%Qc = (qr a * qr b)%R.
Proof. intros. unfold qr, Qcmult, Q2Qc. cbn [this]. rewrite (Qeq_eqR _ _ (Qred_correct _)). apply Q2R_mult. Qed.
Lemma qr_0 : qr 0%Qc = 0%R.
Proof. unfold qr, Q2R. cbn. lra. Qed.
Lemma qr_1 : qr 1%Qc = 1%R.
Proof. unfold qr, Q2R. cbn. lra. Qed.
Lemma qr_zq : forall z, qr (zq z) = IZR z.
Proof.
  intros z. unfold qr, zq, Q2Qc. cbn [this]. rewrite (Qeq_eqR _ _ (Qred_correct _)). unfold Q2R, inject_Z. cbn [Qnum Qden]. field.
Qed.
Lemma qr_div : forall a b, b <> 0%Qc -> qr (a / b)%Qc = (qr a / qr b)%R.
Proof.
  intros a b H. assert (N : qr b <> 0%R).
  { intros E. apply H. apply Qc_is_canon. apply eqR_Qeq. fold (qr b). rewrite E. symmetry. exact qr_0. }
  assert (E : (a / b * b = a)%Qc) by (field; auto). apply (f_equal qr) in E. rewrite qr_mult in E.
  rewrite <- E. field. auto.
Qed.
Lemma qr_sum : forall A (l : list A) F, qr (sum_over l F) = rsum l (fun x => qr (F x)).
Proof. induction l as [|x l IH]; intros; [exact qr_0|]. rewrite sum_cons, rsum_cons, qr_plus, IH. reflexivity. Qed.

(** ** Every pair of pixels is at exactly one offset *)

Lemma NoDup_app' : forall A (l l' : list A), NoDup l -> NoDup l' -> (forall x, In x l -> ~ In x l') -> NoDup (l ++ l').
Proof.
  induction l as [|x l IH]; intros l' H H' D; [exact H'|]. inversion H as [|? ? N1 N2]; subst. cbn [app]. constructor.
  - rewrite in_app_iff. intros [I|I]; [auto|]. apply (D x); simpl; auto.
  - apply IH; auto. intros y Hy. apply D. simpl. auto.
Qed.

Lemma NoDup_prod : forall A B (l : list A) (l' : list B), NoDup l -> NoDup l' -> NoDup (list_prod l l').
Proof.
  induction l as [|x l IH]; intros l' H H'; [constructor|]. inversion H as [|? ? N1 N2]; subst. cbn [list_prod]. apply NoDup_app'.
  - apply FinFun.Injective_map_NoDup; auto. intros a b E. congruence.
  - apply IH; auto.
  - intros [a b] I1 I2. apply in_map_iff in I1. destruct I1 as (y & E & _). injection E as <- <-. apply in_prod_iff in I2. tauto.
Qed.

Lemma NoDup_flat : forall A B (g : A -> list B) l, NoDup l -> (forall x, In x l -> NoDup (g x)) ->
  (forall x y z, In x l -> In y l -> In z (g x) -> In z (g y) -> x = y) -> NoDup (flat_map g l).
Proof.
  induction l as [|x l IH]; intros H Hg D; [constructor|]. inversion H as [|? ? N1 N2]; subst. cbn [flat_map]. apply NoDup_app'.
  - apply Hg. simpl. auto.
  - apply IH; auto. { intros y Hy. apply Hg. simpl. auto. } intros y y' z Iy Iy' I1 I2. apply (D y y' z); simpl; auto.
  - intros z I1 I2. apply in_flat_map in I2. destruct I2 as (y & Hy & I2). apply N1.
    rewrite (D x y z); simpl; auto.
Qed.

Lemma offsets_partition : forall shape, Forall (fun n => 1 <= n) shape ->
  Permutation (flat_map (fun r => pairs true shape (offset shape r)) (pixels shape)) (list_prod (pixels shape) (pixels shape)).
Proof.
  intros shape HP. assert (HP' : Forall (fun n => 0 < n) shape) by (apply image_pos; auto).
  assert (ND : NoDup (list_prod (pixels shape) (pixels shape))) by (apply NoDup_prod; apply zrange_NoDup).
  assert (K : forall p q, pixel shape p -> pixel shape q -> exists r, pixel shape r /\
    forall r', pixel shape r' -> (movedb true shape (coords shape p) (offset shape r') (coords shape q) = true <-> r' = r)).
  { intros p q Hp Hq. destruct (one_offset shape (coords shape p) (coords shape q) HP) as (c & Ic & Hc); try (apply coords_inside; auto).
    destruct (pixel_of_coords shape c Ic) as (r0 & Hr0 & Er0). exists r0. split; auto. intros r Hr.
    rewrite movedb_iff. unfold offset. rewrite Hc by (apply coords_inside; auto). split.
    - intros E. apply (coords_inj shape); auto. congruence.
    - intros ->. auto. }
  apply NoDup_Permutation; auto.
  - apply NoDup_flat; [apply zrange_NoDup| |].
    + intros r _. unfold pairs. apply NoDup_filter. auto.
    + intros r r' [p q] Hr Hr' I1 I2. apply zrange_In in Hr, Hr'. apply pairs_In in I1, I2. destruct I1 as (Hp & Hq & M1), I2 as (_ & _ & M2).
      destruct (K p q Hp Hq) as (r0 & _ & H0). apply H0 in M1; auto. apply H0 in M2; auto. congruence.
  - intros [p q]. rewrite in_flat_map, in_prod_iff. split.
    + intros (r & Hr & I1). apply pairs_In in I1. destruct I1 as (Hp & Hq & _). split; apply zrange_In; auto.
    + intros [Hp Hq]. apply zrange_In in Hp, Hq. destruct (K p q Hp Hq) as (r & Hr & H0). exists r. split; [apply zrange_In; auto|].
      apply pairs_In. split; auto. split; auto. apply H0; auto.
Qed.

(** ** The transform of the autocorrelation *)

Lemma cos_period_Z : forall x z, cos (x + 2 * PI * IZR z) = cos x.
Proof.
  intros x z. replace (2 * PI * IZR z)%R with (2 * IZR z * PI)%R by ring.
  destruct (Z_le_gt_dec 0 z) as [H|H].
  - rewrite <- (Z2Nat.id z) by auto. rewrite <- INR_IZR_INZ. apply cos_period.
  - rewrite <- (cos_period (x + 2 * IZR z * PI) (Z.to_nat (- z))). f_equal. rewrite INR_IZR_INZ, Z2Nat.id, opp_IZR by lia. ring.
Qed.

Definition linked_phases (shape : list Z) (theta phi : Z -> R) : Prop :=
  forall r p q, pixel shape r -> pixel shape p -> pixel shape q ->
    moved true shape (coords shape p) (offset shape r) (coords shape q) ->
    exists z, phi r = (theta q - theta p + 2 * PI * IZR z)%R.

Lemma transform : forall shape theta phi (F : Z -> R), Forall (fun n => 1 <= n) shape -> linked_phases shape theta phi ->
  rsum (pixels shape) (fun r => cos (phi r) * rsum (pairs true shape (offset shape r)) (fun pq => F (fst pq) * F (snd pq)))%R =
  (rsum (pixels shape) (fun p => F p * cos (theta p)) ^ 2 + rsum (pixels shape) (fun p => F p * sin (theta p)) ^ 2)%R.
Proof.
  intros shape theta phi F HP HL.
  transitivity (rsum (list_prod (pixels shape) (pixels shape)) (fun pq => F (fst pq) * F (snd pq) * cos (theta (snd pq) - theta (fst pq)))%R).
  - rewrite <- (rsum_perm _ _ _ _ (offsets_partition shape HP)), rsum_flat. apply rsum_ext. intros r Hr. apply zrange_In in Hr.
    rewrite <- rsum_scale. apply rsum_ext. intros [p q] Hpq. apply pairs_In in Hpq. destruct Hpq as (Hp & Hq & M). cbn [fst snd].
    apply movedb_iff in M. destruct (HL r p q Hr Hp Hq M) as (z & ->). rewrite cos_period_Z. ring.
  - rewrite (rsum_ext _ _ _ (fun pq => (fun p => F p * cos (theta p)) (fst pq) * (fun p => F p * cos (theta p)) (snd pq)
      + (fun p => F p * sin (theta p)) (fst pq) * (fun p => F p * sin (theta p)) (snd pq))%R).
    + rewrite rsum_plus. rewrite (rsum_product _ _ _ _ (fun p => F p * cos (theta p))%R (fun p => F p * cos (theta p))%R).
      rewrite (rsum_product _ _ _ _ (fun p => F p * sin (theta p))%R (fun p => F p * sin (theta p))%R). ring.
    + intros [p q] _. cbn [fst snd]. rewrite cos_minus. ring.
Qed.

(** ** Ensembles of autocorrelations *)

Lemma run_autocorrelations : forall asrt var roi shape l e0, shapes true roi shape -> l <> [] -> (forall f, In f l -> is_image shape f) ->
  ensemble asrt roi true var = Ok e0 ->
  exists e, run asrt (autocorrelations l) e0 = Ok e /\
    forall r, pixel roi r -> result_at e r =
      Exact (sum_over l (fun f => sum_over (pairs true shape (offset roi r)) (fun pq => qn (i_vals f) (fst pq) * qn (i_vals f) (snd pq)))
             / (zq (lenZ l) * zq (zprod shape)))%Qc.
Proof.
  intros asrt var roi shape l e0 HS HL HI HE.
  assert (HR : Forall (fun n => 0 <= n) roi) by (destruct HS as (_ & _ & H & _); eapply Forall_impl; [|exact H]; cbn; intros; lia).
  assert (HM : forall c, In c (autocorrelations l) -> stat_of c = S_S2).
  { intros c Hc. apply in_map_iff in Hc. destruct Hc as (f & <- & _). reflexivity. }
  assert (HF : forall f, In f l -> exists ec, fresh asrt roi true var (CallS2 f f None) = Ok ec /\ forall r, pixel roi r ->
    first_at ec r = sum_over (pairs true shape (offset roi r)) (fun pq => qn (i_vals f) (fst pq) * qn (i_vals f) (snd pq))%Qc /\ norm_at ec r = zq (zprod shape)).
  { intros f Hf. destruct (S2_periodic asrt var roi shape f f HS (HI f Hf) (HI f Hf)) as (ec & E & _ & V). exists ec. split; auto.
    intros r Hr. destruct (V r Hr) as (A & B & _). auto. }
  destruct (add_runs asrt roi true var e0 (autocorrelations l) HR HE) as (e & H).
  { exists S_S2. exact HM. }
  { intros c Hc. apply in_map_iff in Hc. destruct Hc as (f & <- & Hf). destruct (HF f Hf) as (ec & E & _). eauto. }
  exists e. split; auto. intros r Hr.
  destruct (add_sum asrt roi true var e0 _ e HR HE H) as (SH & es & F2 & SD). destruct (SD r Hr) as (D1 & _ & D3).
  assert (Y : forall (G : ens -> Qc) (T : img Qc -> Qc), (forall f ec, In f l -> fresh asrt roi true var (CallS2 f f None) = Ok ec -> G ec = T f) ->
    sum_over es G = sum_over l T).
  { intros G T HG. rewrite (sum_over_fresh _ _ _ _ F2). unfold autocorrelations. rewrite sum_map. apply sum_ext. intros f IN.
    destruct (HF f IN) as (ec & Ec & _). rewrite Ec. auto. }
  assert (E1 : first_at e r = sum_over l (fun f => sum_over (pairs true shape (offset roi r)) (fun pq => qn (i_vals f) (fst pq) * qn (i_vals f) (snd pq))%Qc)).
  { rewrite D1. apply Y. intros f ec IN Ec. destruct (HF f IN) as (ec' & Ec' & V). rewrite Ec in Ec'. injection Ec' as <-. apply (V r Hr). }
  assert (E3 : norm_at e r = (zq (zprod shape) * zq (lenZ l))%Qc).
  { rewrite D3, <- sum_const. apply Y. intros f ec IN Ec. destruct (HF f IN) as (ec' & Ec' & V). rewrite Ec in Ec'. injection Ec' as <-. apply (V r Hr). }
  assert (ST : e_stat e = S_S2).
  { destruct (ensemble_inv _ _ _ _ _ HE) as (k0 & k1 & k2 & HK & _). pose proof (ok0 asrt true var roi k0 k1 k2 HR HK e0 HE) as O.
    destruct (rev (autocorrelations l)) as [|c rr] eqn:ER.
    - apply (f_equal (@rev call)) in ER. rewrite rev_involutive in ER. destruct l; [congruence|discriminate ER].
    - apply (f_equal (@rev call)) in ER. rewrite rev_involutive in ER. cbn [rev] in ER. rewrite <- (HM c) by (rewrite ER; apply in_or_app; right; left; auto).
      rewrite ER in H. eapply run_stat with (k0 := k0) (k1 := k1) (k2 := k2); eauto. apply O. }
  destruct SH as (L1 & L2 & L3 & L4). unfold pixel in Hr.
  assert (RA : result_at e r = Exact (first_at e r / safe (norm_at e r))%Qc).
  { unfold result_at. apply nth_error_nth. unfold result. rewrite ST. rewrite nth_error_map, nth_error_combine.
    unfold data_first, norm in L1, L3. rewrite !qn_nth_error by lia. reflexivity. }
  rewrite RA, E1, E3. rewrite safe_pos; [f_equal; f_equal; ring|].
  pose proof (len_pos shape (shape_pos _ _ _ HS)) as LP. rewrite <- zq_mult, <- zq_0. apply zq_lt. assert (0 < lenZ l) by (destruct l; [congruence|unfold lenZ; cbn; lia]). nia.
Qed.

Lemma transform_result : forall shape theta phi (l : list (img Qc)), Forall (fun n => 1 <= n) shape -> l <> [] -> linked_phases shape theta phi ->
  rsum (pixels shape) (fun r => cos (phi r) * qr (sum_over l (fun f => sum_over (pairs true shape (offset shape r)) (fun pq => qn (i_vals f) (fst pq) * qn (i_vals f) (snd pq)))
             / (zq (lenZ l) * zq (zprod shape)))%Qc)%R =
  (rsum l (fun f => (rsum (pixels shape) (fun p => qr (qn (i_vals f) p) * cos (theta p)) ^ 2
                     + rsum (pixels shape) (fun p => qr (qn (i_vals f) p) * sin (theta p)) ^ 2) / IZR (zprod shape)) / IZR (lenZ l))%R.
Proof.
  intros shape theta phi l HP HL LP.
  pose proof (len_pos shape HP) as PN. assert (PL : 0 < lenZ l) by (destruct l; [congruence|unfold lenZ; cbn; lia]).
  assert (N1 : IZR (zprod shape) <> 0%R) by (apply not_0_IZR; lia). assert (N2 : IZR (lenZ l) <> 0%R) by (apply not_0_IZR; lia).
  rewrite (rsum_ext _ l _ (fun f => / IZR (zprod shape) * rsum (pixels shape) (fun r => cos (phi r) *
     rsum (pairs true shape (offset shape r)) (fun pq => qr (qn (i_vals f) (fst pq)) * qr (qn (i_vals f) (snd pq)))))%R).
  2:{ intros f _. rewrite (transform shape theta phi (fun p => qr (qn (i_vals f) p)) HP LP). unfold Rdiv. ring. }
  rewrite rsum_scale, rsum_swap.
  rewrite (rsum_ext _ (pixels shape) _ (fun r => / (IZR (lenZ l) * IZR (zprod shape)) * rsum l (fun f => cos (phi r) *
     rsum (pairs true shape (offset shape r)) (fun pq => qr (qn (i_vals f) (fst pq)) * qr (qn (i_vals f) (snd pq)))))%R).
  - rewrite rsum_scale. field. auto.
  - intros r _. rewrite qr_div.
    + rewrite qr_mult, !qr_zq, qr_sum, rsum_scale.
      rewrite (rsum_ext _ l _ (fun f => rsum (pairs true shape (offset shape r)) (fun pq => qr (qn (i_vals f) (fst pq)) * qr (qn (i_vals f) (snd pq))))%R).
      * field. auto.
      * intros f _. rewrite qr_sum. apply rsum_ext. intros. apply qr_mult.
    + rewrite <- zq_mult. apply zq_nonzero. nia.
Qed.

(** ** One dimension *)

Lemma moved1_phase : forall n k, 1 <= n -> linked_phases [n] (fun p => 2 * PI * (IZR p * IZR k / IZR n))%R
  (fun r => 2 * PI * (IZR (r - (n - 1) / 2) * IZR k / IZR n))%R.
Proof.
  intros n k Hn r p q Hr Hp Hq M. rewrite !coords1 in M. unfold offset in M. rewrite coords1 in M. cbn [anchor map diff combine fst snd moved] in M.
  destruct M as [M _]. set (d := r - (n - 1) / 2) in *. pose proof (Z.div_mod (p + d) n ltac:(lia)) as DM.
  exists ((p + d) / n * k). rewrite M.
  assert (E : d = (p + d) mod n - p + n * ((p + d) / n)) by lia. apply (f_equal IZR) in E.
  rewrite !plus_IZR, minus_IZR, mult_IZR in E. rewrite mult_IZR. rewrite E at 1. field. apply not_0_IZR. lia.
Qed.

Lemma wiener1 : forall asrt var n start l e0, 1 <= n < 2 ^ 62 -> l <> [] -> (forall s, In s l -> is_image [n] (fst s)) ->
  SpecStructure.fresh [n] start -> ensemble asrt [n] true var = Ok e0 ->
  exists e s st, run asrt (autocorrelations (map fst l)) e0 = Ok e /\ (forall r, 0 <= r < n -> result_at e r = Exact (s r)) /\
    Structure.add_samples start (SpecStructure.samples1 n (map (fun x => ((fun j => Q2R (this (qn (i_vals (fst x)) j))), snd x)) l)) = Ok (Some st) /\
    forall k, 0 <= k < n -> ~ SpecStructure.nyquist n k ->
      Structure.mean st [k] = Some (SpecStructure.sum_below n (fun r => cos (2 * PI * (IZR (r - (n - 1) / 2) * IZR k / IZR n)) * Q2R (this (s r)))%R).
Proof.
  intros asrt var n start l e0 Hn HL HI HF HE.
  assert (HS : shapes true [n] [n]).
  { split; [reflexivity|]. split; [cbn; lia|]. split; [repeat constructor; lia|]. split; [repeat constructor; lia|].
    intros _. cbn. split; auto. apply Z.div_le_upper_bound; lia. }
  destruct (run_autocorrelations asrt var [n] [n] (map fst l) e0 HS) as (e & E & V); auto.
  { destruct l; [congruence|discriminate]. }
  { intros f Hf. apply in_map_iff in Hf. destruct Hf as (s & <- & Hs). auto. }
  set (sm := map (fun x => ((fun j => Q2R (this (qn (i_vals (fst x)) j))), snd x)) l).
  destruct (StructureTop.structure1 n start sm) as (st & ES & _ & M); [lia|auto|unfold sm; destruct l; [congruence|discriminate]|].
  eexists e, _, st. split; [exact E|]. split; [intros r Hr; apply V; unfold pixel; cbn; lia|]. split; [exact ES|].
  intros k Hk NK. rewrite (proj1 (M k Hk) NK). f_equal.
  assert (HP : Forall (fun n => 1 <= n) [n]) by (repeat constructor; lia).
  assert (NE : map fst l <> []) by (destruct l; [congruence|discriminate]).
  pose proof (transform_result [n] _ _ (map fst l) HP NE (moved1_phase n k ltac:(lia))) as T.
  assert (PX : pixels [n] = zrange 0 n) by (unfold pixels; cbn [zprod fold_right]; f_equal; lia).
  assert (PZ : zprod [n] = n) by (cbn; lia). rewrite PX in T. rewrite PZ in *.
  symmetry. etransitivity; [exact T|].
  unfold SpecStructure.average. rewrite rsum_map. unfold lenZ. rewrite map_length. unfold sm. rewrite map_map, map_length, INR_IZR_INZ.
  f_equal.
Qed.

(** ** Two dimensions *)

Lemma pixels2 : forall n m F, 1 <= n -> 1 <= m ->
  rsum (pixels [n; m]) F = SpecStructure.sum_below n (fun a => SpecStructure.sum_below m (fun b => F (a * m + b))).
Proof.
  intros n m F Hn Hm. transitivity (rsum (list_prod (zrange 0 n) (zrange 0 m)) (fun ab => F (fst ab * m + snd ab))).
  - rewrite <- (rsum_map _ _ (fun ab => fst ab * m + snd ab) (list_prod (zrange 0 n) (zrange 0 m)) F). apply rsum_perm. apply NoDup_Permutation.
    + apply zrange_NoDup.
    + assert (G : forall l : list (Z * Z), (forall ab, In ab l -> 0 <= snd ab < m) -> NoDup l -> NoDup (map (fun ab => fst ab * m + snd ab) l)).
      { induction l as [|x l IH]; intros Hl Hd; [constructor|]. inversion Hd as [|? ? N1 N2]; subst. cbn [map]. constructor.
        - intros I1. apply in_map_iff in I1. destruct I1 as (y & E & Iy). apply N1.
          pose proof (Hl x (or_introl eq_refl)) as Bx. pose proof (Hl y (or_intror Iy)) as By.
          assert (fst y = fst x) by nia. assert (snd y = snd x) by nia. destruct x, y; cbn in *; subst; auto.
        - apply IH; auto. intros. apply Hl. simpl. auto. }
      apply G; [|apply NoDup_prod; apply zrange_NoDup]. intros [a b] I1. apply in_prod_iff in I1. destruct I1 as [_ I1]. apply zrange_In in I1. auto.
    + intros p. unfold pixels. rewrite zrange_In, in_map_iff. cbn [zprod fold_right]. split.
      * intros Hp. exists (p / m, p mod m). cbn [fst snd]. split; [pose proof (Z.div_mod p m); lia|]. apply in_prod_iff. rewrite !zrange_In.
        split; [|apply Z.mod_pos_bound; lia]. split; [apply Z.div_pos; lia|apply Z.div_lt_upper_bound; lia].
      * intros ([a b] & <- & I1). apply in_prod_iff in I1. rewrite !zrange_In in I1. cbn [fst snd]. nia.
  - rewrite rsum_prod. reflexivity.
Qed.

Lemma moved2_phase : forall n m k l, 1 <= n -> 1 <= m ->
  linked_phases [n; m] (fun p => 2 * PI * (IZR (p / m) * IZR k / IZR n + IZR (p mod m) * IZR l / IZR m))%R
  (fun r => 2 * PI * (IZR (r / m - (n - 1) / 2) * IZR k / IZR n + IZR (r mod m - (m - 1) / 2) * IZR l / IZR m))%R.
Proof.
  intros n m k l Hn Hm r p q Hr Hp Hq M. rewrite !coords2 in M. unfold offset in M. rewrite coords2 in M. cbn [anchor map diff combine fst snd moved] in M.
  destruct M as (M1 & M2 & _). set (d := r / m - (n - 1) / 2) in *. set (d' := r mod m - (m - 1) / 2) in *.
  pose proof (Z.div_mod (p / m + d) n ltac:(lia)) as D1. pose proof (Z.div_mod (p mod m + d') m ltac:(lia)) as D2.
  exists ((p / m + d) / n * k + (p mod m + d') / m * l). rewrite M1, M2.
  assert (E1 : d = (p / m + d) mod n - p / m + n * ((p / m + d) / n)) by lia. apply (f_equal IZR) in E1.
  assert (E2 : d' = (p mod m + d') mod m - p mod m + m * ((p mod m + d') / m)) by lia. apply (f_equal IZR) in E2.
  rewrite plus_IZR, minus_IZR, mult_IZR in E1, E2. rewrite plus_IZR, !mult_IZR.
  set (X1 := IZR ((p / m + d) mod n)) in *. set (X2 := IZR ((p mod m + d') mod m)) in *.
  set (Y1 := IZR ((p / m + d) / n)) in *. set (Y2 := IZR ((p mod m + d') / m)) in *. rewrite E1, E2.
  field. split; apply not_0_IZR; lia.
Qed.

(** The transform of the averaged correlation is the averaged power, at every frequency. *)
Lemma spectrum2 : forall asrt var n m l e0, 1 <= n < 2 ^ 62 -> 1 <= m < 2 ^ 62 -> l <> [] ->
  (forall s, In s l -> is_image [n; m] (@fst _ (Z -> Z -> R) s)) -> ensemble asrt [n; m] true var = Ok e0 ->
  exists e s, run asrt (autocorrelations (map fst l)) e0 = Ok e /\ (forall r, pixel [n; m] r -> result_at e r = Exact (s r)) /\
    forall i j, SpecStructure.average (fun x => SpecStructure.power2 n m (fst x) i j / IZR (n * m))%R
        (map (fun x => ((fun a b => Q2R (this (qn (i_vals (fst x)) (a * m + b)))), snd x)) l) =
      SpecStructure.sum_below n (fun a => SpecStructure.sum_below m (fun b =>
        cos (2 * PI * (IZR (a - (n - 1) / 2) * IZR i / IZR n + IZR (b - (m - 1) / 2) * IZR j / IZR m)) * Q2R (this (s (a * m + b)%Z))))%R.
Proof.
  intros asrt var n m l e0 Hn Hm HL HI HE.
  assert (HS : shapes true [n; m] [n; m]).
  { split; [reflexivity|]. split; [cbn; lia|]. split; [repeat constructor; lia|]. split; [repeat constructor; lia|].
    intros _. cbn. repeat split; apply Z.div_le_upper_bound; lia. }
  destruct (run_autocorrelations asrt var [n; m] [n; m] (map fst l) e0 HS) as (e & E & V); auto.
  { destruct l; [congruence|discriminate]. }
  { intros f Hf. apply in_map_iff in Hf. destruct Hf as (s & <- & Hs). auto. }
  set (sm := map (fun x => ((fun a b => Q2R (this (qn (i_vals (fst x)) (a * m + b)))), snd x)) l).
  eexists e, _. split; [exact E|]. split; [exact V|].
  intros i j.
  assert (HP : Forall (fun n => 1 <= n) [n; m]) by (repeat constructor; lia).
  assert (NE : map fst l <> []) by (destruct l; [congruence|discriminate]).
  pose proof (transform_result [n; m] _ _ (map fst l) HP NE (moved2_phase n m i j ltac:(lia) ltac:(lia))) as T.
  assert (PZ : zprod [n; m] = n * m) by (cbn; lia). rewrite PZ in *.
  assert (DM : forall a b, 0 <= b < m -> (a * m + b) / m = a /\ (a * m + b) mod m = b).
  { intros a b Hb. split; [rewrite Z.add_comm, Z.div_add, Z.div_small; lia|rewrite Z.add_comm, Z.mod_add, Z.mod_small; lia]. }
  rewrite pixels2 in T by lia. etransitivity; [|etransitivity; [symmetry; exact T|]].
  - unfold SpecStructure.average. rewrite rsum_map. unfold lenZ. rewrite map_length. unfold sm. rewrite map_length, INR_IZR_INZ. f_equal. rewrite map_map. cbn [fst].
    refine (rsum_ext _ l _ _ _). intros s _. unfold SpecStructure.power2. rewrite !pixels2 by lia.
    assert (G : forall tr : R -> R, SpecStructure.sum_below n (fun a => SpecStructure.sum_below m (fun b => qr (qn (i_vals (fst s)) (a * m + b)) *
        tr (2 * PI * (IZR a * IZR i / IZR n + IZR b * IZR j / IZR m))))%R =
      SpecStructure.sum_below n (fun a => SpecStructure.sum_below m (fun b => qr (qn (i_vals (fst s)) (a * m + b)) *
        tr (2 * PI * (IZR ((a * m + b) / m) * IZR i / IZR n + IZR ((a * m + b) mod m) * IZR j / IZR m))))%R).
    { intros tr. unfold SpecStructure.sum_below. f_equal. apply map_ext_in. intros a _. f_equal. apply map_ext_in. intros b Hb. apply zrange_In in Hb.
      destruct (DM a b Hb) as [-> ->]. reflexivity. }
    unfold qr in *. rewrite <- (G cos), <- (G sin). reflexivity.
  - unfold SpecStructure.sum_below. f_equal. apply map_ext_in. intros a _. f_equal. apply map_ext_in. intros b Hb. apply zrange_In in Hb.
    destruct (DM a b Hb) as [-> ->]. reflexivity.
Qed.

Lemma wiener2 : forall asrt var n m start l e0, 1 <= n < 2 ^ 62 -> 1 <= m < 2 ^ 62 -> n mod 2 = m mod 2 -> l <> [] ->
  (forall s, In s l -> is_image [n; m] (fst s)) ->
  SpecStructure.fresh [n; m] start -> ensemble asrt [n; m] true var = Ok e0 ->
  exists e s st, run asrt (autocorrelations (map fst l)) e0 = Ok e /\ (forall r, pixel [n; m] r -> result_at e r = Exact (s r)) /\
    Structure.add_samples start (SpecStructure.samples2 n m (map (fun x => ((fun a b => Q2R (this (qn (i_vals (fst x)) (a * m + b)))), snd x)) l)) = Ok (Some st) /\
    forall i j, 0 <= i < n -> 0 <= j < m -> 2 * i < n /\ 2 * j < m \/ n < 2 * i /\ m < 2 * j ->
      Structure.mean st [i; j] = Some (SpecStructure.sum_below n (fun a => SpecStructure.sum_below m (fun b =>
        cos (2 * PI * (IZR (a - (n - 1) / 2) * IZR i / IZR n + IZR (b - (m - 1) / 2) * IZR j / IZR m)) * Q2R (this (s (a * m + b)%Z))))%R).
Proof.
  intros asrt var n m start l e0 Hn Hm PA HL HI HF HE.
  destruct (spectrum2 asrt var n m l e0 Hn Hm HL HI HE) as (e & s & E & V & T).
  destruct (StructureTop.structure2 n m start (map (fun x => ((fun a b => Q2R (this (qn (i_vals (fst x)) (a * m + b)))), snd x)) l)) as (st & ES & _ & M);
    [lia|lia|auto|auto|destruct l; [congruence|discriminate]|].
  exists e, s, st. split; [exact E|]. split; [exact V|]. split; [exact ES|].
  intros i j Hi Hj Q. rewrite (proj1 (M i j Hi Hj) Q). f_equal. apply T.
Qed.

(** One pixel in a box of four by four. *)
Definition lone : img Qc := mkimg [4; 4] (map zq [0; 0; 0; 0; 1; 0; 0; 0; 0; 0; 0; 0; 0; 0; 0; 0]).

Lemma lone_delta : forall a b, 0 <= a < 4 -> 0 <= b < 4 -> Q2R (this (qn (i_vals lone) (a * 4 + b))) = StructureTop.delta 1 0 a b.
Proof.
  intros a b Ha Hb. assert (A : a = 0 \/ a = 1 \/ a = 2 \/ a = 3) by lia. assert (B : b = 0 \/ b = 1 \/ b = 2 \/ b = 3) by lia.
  destruct A as [->|[->|[->| ->]]]; destruct B as [->|[->|[->| ->]]]; vm_compute Z.add; unfold StructureTop.delta; cbn [Z.eqb Pos.eqb andb];
    (match goal with |- context [qn ?v ?p] => let q := eval vm_compute in (this (qn v p)) in change (this (qn v p)) with q end);
    unfold Q2R; cbn [Qnum Qden]; lra.
Qed.

Lemma wiener2_refuted : exists f e0 e s i j, is_image [4; 4] f /\ ensemble true [4; 4] true true = Ok e0 /\
  run true (autocorrelations [f]) e0 = Ok e /\ (forall r, pixel [4; 4] r -> result_at e r = Exact (s r)) /\
  0 <= i < 4 /\ 0 <= j < 4 /\ ~ SpecStructure.nyquist 4 i /\ ~ SpecStructure.nyquist 4 j /\
  forall junk, exists st, Structure.add_sample None (Structure.Data2 4 4 (fun a b => Q2R (this (qn (i_vals f) (a * 4 + b))))) junk = Ok st /\
    Structure.mean st [i; j] <> Some (SpecStructure.sum_below 4 (fun a => SpecStructure.sum_below 4 (fun b =>
        cos (2 * PI * (IZR (a - (4 - 1) / 2) * IZR i / IZR 4 + IZR (b - (4 - 1) / 2) * IZR j / IZR 4)) * Q2R (this (s (a * 4 + b)%Z))))%R).
Proof.
  assert (IM : is_image [4; 4] lone) by (split; reflexivity).
  assert (exists e0, ensemble true [4; 4] true true = Ok e0) as (e0 & E0) by (eexists; reflexivity).
  destruct (spectrum2 true true 4 4 [(lone, fun _ _ => 0%R)] e0) as (e & s & E & V & T); [lia|lia|discriminate|intros x [<-|[]]; exact IM|exact E0|].
  exists lone, e0, e, s, 1, 3. split; [exact IM|]. split; [exact E0|]. split; [exact E|]. split; [exact V|].
  unfold SpecStructure.nyquist. do 4 (split; [lia|]).
  intros junk.
  rewrite <- T. cbn [map fst snd]. rewrite StructureTop.average_one. cbn [fst snd].
  set (u := fun a b => Q2R (this (qn (i_vals lone) (a * 4 + b)))) in *.
  assert (U : forall a b, 0 <= a < 4 -> 0 <= b < 4 -> u a b = StructureTop.delta 1 0 a b) by exact lone_delta.
  clearbody u. clear E V T E0 e e0 s.
  destruct (StructureTop.structure2_all 4 4 None [(u, junk)]) as (st' & E & SH & M); try lia; [now left|discriminate|].
  apply StructureTop.one_sample in E. cbn [fst snd] in E. exists st'. split; [exact E|].
  rewrite (proj1 (M 1 3 ltac:(lia) ltac:(lia))) by (unfold SpecStructure.nyquist; lia). rewrite StructureTop.average_one. cbn [fst snd].
  assert (P : SpecStructure.power2 4 4 u 1 3 = 1%R).
  { rewrite <- (StructureTop.power2_delta 4 4 1 0 1 3) by lia. unfold SpecStructure.power2.
    f_equal; f_equal; apply StructureProofs.sum_ext; intros a Ha; apply StructureProofs.sum_ext; intros b Hb; now rewrite U. }
  rewrite P. assert (FT : forall k l, Structure.fft2 4 4 u k l = Structure.fft2 4 4 (StructureTop.delta 1 0) k l).
  { intros k l. rewrite (surjective_pairing (Structure.fft2 4 4 u k l)), (surjective_pairing (Structure.fft2 4 4 (StructureTop.delta 1 0) k l)).
    rewrite !StructureProofs2.fft2_fst, !StructureProofs2.fft2_snd by lia.
    f_equal; [|f_equal]; apply StructureProofs.sum_ext; intros a Ha; apply StructureProofs.sum_ext; intros b Hb; now rewrite U. }
  unfold StructureProofs2.entry2. cbn [Z.eqb Z.mul Pos.mul Z.gtb Z.ltb Z.compare Pos.compare Pos.compare_cont andb orb Pos.eqb].
  rewrite !FT. change (Structure.start_of 4) with 3. change (3 - 3 + 1) with 1. change (4 - 1 - (3 - 3)) with 3.
  rewrite !StructureTop.fft2_delta by lia. unfold Structure.cmul. cbn [fst snd Structure.cast]. unfold StructureProofs2.wave2.
  replace (2 * PI * (1 * 1 / 4 + 0 * 1 / 4))%R with (PI / 2)%R by field.
  replace (2 * PI * (1 * 1 / 4 + 0 * 3 / 4))%R with (PI / 2)%R by field.
  rewrite cos_PI2, sin_PI2. change (4 * 4) with 16. intro H. injection H as H. lra.
Qed.
