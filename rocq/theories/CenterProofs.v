(** * CenterProofs: lemmas about centers *)

From Coq Require Import ZArith List Bool Reals Lra Lia Permutation.
From Verif Require Import Base BaseLemmas Cluster SpecCluster ClusterGeom KernelProofs Center SpecCenter.
Import ListNotations.
Open Scope R_scope.

(** ** Sums *)
Lemma total_ext : forall {A} (f g : A -> R) l, (forall a, In a l -> f a = g a) -> total f l = total g l.
Proof.
  induction l as [|a t IH]; cbn; intros H; [reflexivity|].
  rewrite (H a), IH; auto.
Qed.

Lemma total_map : forall {A B} (g : A -> B) (f : B -> R) l, total f (map g l) = total (fun a => f (g a)) l.
Proof. induction l as [|a t IH]; cbn; [reflexivity|]. now rewrite IH. Qed.

Lemma total_app : forall {A} (f : A -> R) l l', total f (l ++ l') = total f l + total f l'.
Proof. induction l as [|a t IH]; cbn; intros; [lra|]. rewrite IH. lra. Qed.

Lemma total_perm : forall {A} (f : A -> R) l l', Permutation l l' -> total f l = total f l'.
Proof. induction 1; cbn; lra. Qed.

Lemma total_scal : forall {A} (f : A -> R) c l, total (fun a => c * f a) l = c * total f l.
Proof. induction l as [|a t IH]; cbn; [lra|]. rewrite IH. lra. Qed.

Lemma total_plus : forall {A} (f g : A -> R) l, total (fun a => f a + g a) l = total f l + total g l.
Proof. induction l as [|a t IH]; cbn; [lra|]. rewrite IH. lra. Qed.

Lemma total_le : forall {A} (f g : A -> R) l, (forall a, In a l -> f a <= g a) -> total f l <= total g l.
Proof.
  induction l as [|a t IH]; cbn; intros H; [lra|].
  assert (f a <= g a) by auto. assert (total f t <= total g t) by auto. lra.
Qed.

Lemma total_nonneg : forall {A} (f : A -> R) l, (forall a, In a l -> 0 <= f a) -> 0 <= total f l.
Proof.
  intros A f l H. replace 0 with (total (fun _ : A => 0) l); [now apply total_le|].
  clear. induction l; cbn; lra.
Qed.

Lemma total_one : forall {A} (l : list A), total (fun _ => 1) l = INR (length l).
Proof.
  induction l as [|a t IH]; [reflexivity|]. cbn [total length]. rewrite IH, S_INR. lra.
Qed.

Lemma total_zero : forall {A} (f : A -> R) l, (forall a, In a l -> f a = 0) -> total f l = 0.
Proof.
  intros A f l H. rewrite (total_ext f (fun _ => 0)) by assumption.
  clear. induction l; cbn; lra.
Qed.

Lemma total_pos : forall {A} (f : A -> R) l, l <> [] -> (forall a, In a l -> 0 < f a) -> 0 < total f l.
Proof.
  destruct l as [|a t]; [congruence|]. intros _ H. cbn.
  assert (0 < f a) by (apply H; now left).
  assert (0 <= total f t); [|lra]. apply total_nonneg. intros b Hb. apply Rlt_le, H. now right.
Qed.

Lemma rsum_map : forall {A} (f : A -> R) l, rsum (map f l) = total f l.
Proof. unfold rsum. induction l as [|a t IH]; cbn; [reflexivity|]. now rewrite IH. Qed.

Lemma rmap2_mass : forall {A} (f g : A -> R) l, rsum (rmap2 Rmult (map f l) (map g l)) = total (fun a => g a * f a) l.
Proof. unfold rsum. induction l as [|a t IH]; cbn; [reflexivity|]. rewrite IH. lra. Qed.

(** Average over weighted positions. *)
Definition wavg (f : list R -> R) (l : list mass) : num :=
  quotient (total (fun m => snd m * f (fst m)) l) (total snd l).

Lemma average_of_wavg : forall f (l : list mass),
  average_of (map snd l) (map (fun m => f (fst m)) l) = wavg f l.
Proof. intros. unfold average_of, wavg. now rewrite rmap2_mass, rsum_map. Qed.

Lemma mean_of_wavg : forall f (ps : list (list R)), mean_of (map f ps) = wavg f (unit_mass ps).
Proof.
  intros. unfold mean_of, wavg, unit_mass. rewrite rsum_map, map_length, !total_map. cbn.
  rewrite total_one. f_equal. apply total_ext. intros. lra.
Qed.

(** The opposite of a vanishing average is -0. *)
Definition minus_of (l : list mass) : bool := if Rlt_dec (total snd l) 0 then false else true.

(** One axis, in terms of weighted positions. *)
Definition axis_mass (periodic : bool) (len : R) (k : nat) (l : list mass) : num :=
  if negb periodic then wavg (coordinate k) l
  else if Req_EM_T len 0 then NaN
  else
    match atan2 (minus_of l) (opposite (wavg (fun p => sin (2 * PI * coordinate k p / len)) l))
                             (opposite (wavg (fun p => cos (2 * PI * coordinate k p / len)) l)) with
    | Num a => Num (len * (a + PI) / (2 * PI))
    | x => x
    end.

Lemma minus_unit : forall ps, minus_of (unit_mass ps) = true.
Proof.
  intros. unfold minus_of, unit_mass. rewrite total_map. cbn. rewrite total_one.
  destruct (Rlt_dec (INR (length ps)) 0) as [H|H]; [|reflexivity]. assert (P := pos_INR (length ps)). lra.
Qed.

Lemma axis_center_average : forall per len k (l : list mass),
  axis_center per (average_of (map snd l)) (minus_of l) len (column k (map fst l)) = axis_mass per len k l.
Proof.
  intros. unfold axis_center, axis_mass, column. rewrite !map_map. destruct per; cbn [negb].
  - destruct (Req_EM_T len 0); [reflexivity|]. cbv zeta. rewrite ?map_map.
    assert (E1 := average_of_wavg (fun p => cos (2 * PI * coordinate k p / len)) l).
    assert (E2 := average_of_wavg (fun p => sin (2 * PI * coordinate k p / len)) l).
    unfold coordinate in *. rewrite E1, E2. reflexivity.
  - exact (average_of_wavg (coordinate k) l).
Qed.

Lemma axis_center_mean : forall per len k ps,
  axis_center per mean_of true len (column k ps) = axis_mass per len k (unit_mass ps).
Proof.
  intros. unfold axis_center, axis_mass, column. rewrite !map_map. destruct per; cbn [negb].
  - destruct (Req_EM_T len 0); [reflexivity|]. cbv zeta. rewrite ?map_map.
    assert (E1 := mean_of_wavg (fun p => cos (2 * PI * coordinate k p / len)) ps).
    assert (E2 := mean_of_wavg (fun p => sin (2 * PI * coordinate k p / len)) ps).
    rewrite minus_unit. unfold coordinate in *. rewrite E1, E2. reflexivity.
  - exact (mean_of_wavg (coordinate k) ps).
Qed.

Lemma all_axes_nth : forall per avg mi ps shape k i, (k < length shape)%nat ->
  nth_error (all_axes per avg mi shape ps i) k
  = Some (axis_center per avg mi (side shape k) (column (i + k) ps)).
Proof.
  induction shape as [|n t IH]; cbn; intros k i H; [lia|].
  destruct k as [|k]; cbn.
  - now rewrite Nat.add_0_r.
  - rewrite IH by lia. now rewrite Nat.add_succ_r.
Qed.

Lemma all_axes_length : forall per avg mi ps shape i, length (all_axes per avg mi shape ps i) = length shape.
Proof. induction shape; cbn; intros; auto. Qed.

Lemma rows_fit_iff : forall shape ps, rows_fit shape ps = true <-> fit shape ps.
Proof.
  intros. unfold rows_fit, fit. rewrite forallb_forall.
  split; intros H p Hp; specialize (H p Hp); now apply Nat.eqb_eq.
Qed.

Lemma zeros_nth : forall (shape : list R) k, (k < length shape)%nat ->
  nth_error (map (fun _ => Num 0) shape) k = Some (Num 0).
Proof. induction shape; cbn; intros [|k] H; try lia; auto. apply IHshape. lia. Qed.

(** ** What the two functions compute *)
Lemma mass_runs : forall shape (l : list mass) per, fit shape (map fst l) -> l <> [] ->
  exists r, center_of_mass shape (map fst l) (map snd l) per = Ok r /\ length r = length shape /\
    forall k, (k < length shape)%nat -> nth_error r k = Some (axis_mass per (side shape k) k l).
Proof.
  intros shape l per F N. unfold center_of_mass. rewrite (proj2 (rows_fit_iff _ _) F).
  rewrite !map_length, Nat.eqb_refl. cbn [negb].
  destruct shape as [|n t]; [exists []; cbn; repeat split; auto; lia|].
  destruct l as [|m l]; [congruence|]. cbn [no_positions map].
  eexists. split; [reflexivity|]. split; [apply all_axes_length|]. intros k Hk.
  etransitivity; [exact (all_axes_nth per _ _ _ (n :: t) k 0 Hk)|].
  f_equal. rewrite <- (axis_center_average per (side (n :: t) k) k (m :: l)).
  unfold minus_of. rewrite <- (rsum_map snd). reflexivity.
Qed.

Lemma center_runs : forall shape ps per, fit shape ps -> ps <> [] ->
  exists r, center shape ps per = Ok r /\ length r = length shape /\
    forall k, (k < length shape)%nat -> nth_error r k = Some (axis_mass per (side shape k) k (unit_mass ps)).
Proof.
  intros shape ps per F N. unfold center. rewrite (proj2 (rows_fit_iff _ _) F). cbn [negb].
  destruct shape as [|n t]; [exists []; cbn; repeat split; auto; lia|].
  destruct ps as [|m l]; [congruence|]. cbn [no_positions map].
  eexists. split; [reflexivity|]. split; [apply all_axes_length|]. intros k Hk.
  etransitivity; [exact (all_axes_nth per _ _ _ (n :: t) k 0 Hk)|].
  f_equal. exact (axis_center_mean per (side (n :: t) k) k (m :: l)).
Qed.

Lemma center_none : forall shape per, center shape [] per = Ok (map (fun _ => Num 0) shape).
Proof. intros. unfold center. cbn. destruct shape; reflexivity. Qed.

Lemma mass_none : forall shape ws per, center_of_mass shape [] ws per = Ok (map (fun _ => Num 0) shape).
Proof. intros. unfold center_of_mass. cbn. destruct shape; reflexivity. Qed.

(** Two results are equal if they are at every axis. *)
Lemma nth_error_ext_len : forall {A} (l l' : list A), length l = length l' ->
  (forall k, (k < length l)%nat -> nth_error l k = nth_error l' k) -> l = l'.
Proof.
  induction l as [|a t IH]; destruct l' as [|b t']; cbn; intros L H; try lia; [reflexivity|].
  f_equal.
  - specialize (H 0%nat). cbn in H. assert (Some a = Some b) by (apply H; lia). congruence.
  - apply IH; [lia|]. intros k Hk. apply (H (S k)). lia.
Qed.

(** ** Angles *)
Lemma sin_atan : forall t, sin (atan t) = t * cos (atan t).
Proof.
  intros t. assert (B := atan_bound t). assert (C : 0 < cos (atan t)) by (apply cos_gt_0; lra).
  assert (T := atan_right_inv t). unfold tan in T.
  rewrite <- T at 2. field. lra.
Qed.

Lemma atan_nonneg : forall t, 0 <= t -> 0 <= atan t.
Proof.
  intros t [H|H]; [|subst; rewrite atan_0; lra]. rewrite <- atan_0. left. now apply atan_increasing.
Qed.

Lemma atan_neg : forall t, t < 0 -> atan t < 0.
Proof. intros t H. rewrite <- atan_0. now apply atan_increasing. Qed.

Lemma atan2_spec : forall mi y x, exists rho, 0 <= rho /\ x = rho * cos (atan2_num mi y x) /\ y = rho * sin (atan2_num mi y x).
Proof.
  intros mi y x. unfold atan2_num.
  destruct (Rlt_dec 0 x) as [P|P].
  - exists (x / cos (atan (y / x))). assert (B := atan_bound (y / x)).
    assert (C : 0 < cos (atan (y / x))) by (apply cos_gt_0; lra).
    split; [apply Rlt_le, Rdiv_lt_0_compat; lra|]. split; [field; lra|].
    rewrite sin_atan. field. lra.
  - destruct (Rlt_dec x 0) as [N|N].
    + assert (B := atan_bound (y / x)).
      assert (C : 0 < cos (atan (y / x))) by (apply cos_gt_0; lra).
      destruct (Rlt_dec 0 y) as [Y|Y]; [|destruct (Rlt_dec y 0) as [Z|Z]].
      * exists (- x / cos (atan (y / x))). rewrite neg_cos, neg_sin, sin_atan.
        split; [apply Rlt_le, Rdiv_lt_0_compat; lra|]. split; field; lra.
      * exists (- x / cos (atan (y / x))). replace (atan (y / x) - PI) with (- (PI - atan (y / x))) by ring.
        rewrite cos_neg, sin_antisym.
        replace (PI - atan (y / x)) with (- atan (y / x) + PI) by ring.
        rewrite neg_cos, neg_sin, cos_neg, sin_antisym, sin_atan.
        split; [apply Rlt_le, Rdiv_lt_0_compat; lra|]. split; field; lra.
      * exists (- x). destruct mi; rewrite ?cos_neg, ?sin_antisym, cos_PI, sin_PI; lra.
    + assert (x = 0) by lra. subst x.
      destruct (Rlt_dec 0 y) as [Y|Y].
      * exists y. rewrite cos_PI2, sin_PI2. lra.
      * destruct (Rlt_dec y 0) as [Z|Z].
        -- exists (- y). rewrite cos_neg, sin_antisym, cos_PI2, sin_PI2. lra.
        -- exists 0. lra.
Qed.

Lemma atan2_bounds : forall mi y x, - PI <= atan2_num mi y x <= PI /\ (mi = true -> atan2_num mi y x < PI).
Proof.
  intros mi y x. unfold atan2_num. assert (P := PI_RGT_0).
  destruct (Rlt_dec 0 x) as [X|X].
  - assert (B := atan_bound (y / x)). lra.
  - destruct (Rlt_dec x 0) as [N|N].
    + assert (B := atan_bound (y / x)).
      destruct (Rlt_dec 0 y) as [Y|Y]; [|destruct (Rlt_dec y 0) as [Z|Z]].
      * assert (y / x < 0).
        { unfold Rdiv. apply Ropp_lt_cancel. rewrite Ropp_0.
          replace (- (y * / x)) with (y * / - x) by (field; lra).
          apply Rmult_lt_0_compat; [lra|]. apply Rinv_0_lt_compat. lra. }
        assert (A := atan_neg _ H). lra.
      * assert (0 <= y / x).
        { replace (y / x) with (- y / - x) by (field; lra).
          apply Rmult_le_pos; [lra|]. apply Rlt_le, Rinv_0_lt_compat. lra. }
        assert (A := atan_nonneg _ H). lra.
      * destruct mi; split; intros; try discriminate; lra.
    + destruct (Rlt_dec 0 y); [lra|]. destruct (Rlt_dec y 0); [lra|].
      destruct mi; split; intros; try discriminate; lra.
Qed.

Lemma atan2_range : forall y x, - PI <= atan2_num true y x < PI.
Proof. intros y x. destruct (atan2_bounds true y x) as [A B]. specialize (B eq_refl). lra. Qed.

Lemma cos_one : forall x, cos x = 1 -> exists k : Z, x = IZR k * (2 * PI).
Proof.
  intros x H. replace x with (2 * (x / 2)) in H by field. rewrite cos_2a_sin in H.
  assert (S : sin (x / 2) = 0) by (apply Rsqr_0_uniq; unfold Rsqr; lra).
  destruct (sin_eq_0_0 _ S) as [k K]. exists k. lra.
Qed.

Lemma cos_turn : forall x (k : Z), cos (x + IZR k * (2 * PI)) = cos x.
Proof.
  intros x k. destruct (Z_le_gt_dec 0 k) as [H|H].
  - rewrite <- (Z2Nat.id k) by assumption. rewrite <- INR_IZR_INZ.
    replace (INR (Z.to_nat k) * (2 * PI)) with (2 * INR (Z.to_nat k) * PI) by ring. apply cos_period.
  - rewrite <- (cos_period (x + IZR k * (2 * PI)) (Z.to_nat (- k))). f_equal.
    rewrite INR_IZR_INZ, Z2Nat.id by lia. rewrite opp_IZR. ring.
Qed.

Lemma sin_turn : forall x (k : Z), sin (x + IZR k * (2 * PI)) = sin x.
Proof.
  intros x k. destruct (Z_le_gt_dec 0 k) as [H|H].
  - rewrite <- (Z2Nat.id k) by assumption. rewrite <- INR_IZR_INZ.
    replace (INR (Z.to_nat k) * (2 * PI)) with (2 * INR (Z.to_nat k) * PI) by ring. apply sin_period.
  - rewrite <- (sin_period (x + IZR k * (2 * PI)) (Z.to_nat (- k))). f_equal.
    rewrite INR_IZR_INZ, Z2Nat.id by lia. rewrite opp_IZR. ring.
Qed.

(** Polar coordinates are unique. *)
Lemma polar_unique : forall r s a b, 0 <= r -> 0 <= s ->
  r * cos a = s * cos b -> r * sin a = s * sin b -> r <> 0 -> exists k : Z, b = a + IZR k * (2 * PI).
Proof.
  intros r s a b Hr Hs C S N.
  assert (E : r = s).
  { assert (r * r = s * s).
    { assert (A := sin2_cos2 a). assert (B := sin2_cos2 b). unfold Rsqr in *.
      transitivity (r * cos a * (r * cos a) + r * sin a * (r * sin a)).
      - transitivity (r * r * (sin a * sin a + cos a * cos a)); [rewrite A|]; ring.
      - rewrite C, S. transitivity (s * s * (sin b * sin b + cos b * cos b)); [|rewrite B]; ring. }
    apply Rsqr_inj; auto. }
  subst s.
  assert (cos (b - a) = 1).
  { rewrite cos_minus. apply (Rmult_eq_reg_l r); [|assumption].
    transitivity (r * cos b * cos a + r * sin b * sin a); [ring|]. rewrite <- C, <- S.
    assert (A := sin2_cos2 a). unfold Rsqr in A.
    transitivity (r * (sin a * sin a + cos a * cos a)); [ring|]. rewrite A. ring. }
  destruct (cos_one _ H) as [k K]. exists k. lra.
Qed.

(** ** The circular mean *)
Lemma wavg_num : forall f (l : list mass), total snd l <> 0 ->
  wavg f l = Num (total (fun m => snd m * f (fst m)) l / total snd l).
Proof. intros. unfold wavg, quotient. now destruct (Req_EM_T (total snd l) 0). Qed.

Lemma axis_mass_num : forall len k (l : list mass), len <> 0 -> total snd l <> 0 ->
  axis_mass true len k l
  = Num (len * (atan2_num (minus_of l) (- (sum_sin len k l / total snd l))
                                       (- (sum_cos len k l / total snd l)) + PI) / (2 * PI)).
Proof.
  intros len k l HL HW. unfold axis_mass. cbn [negb]. destruct (Req_EM_T len 0); [contradiction|].
  now rewrite !wavg_num by assumption.
Qed.

(** Any total but zero: the circular mean of the weights divided by their total. *)
Lemma axis_mass_general : forall len k (l : list mass), 0 < len -> total snd l <> 0 ->
  exists c rho, axis_mass true len k l = Num c /\ 0 <= c <= len /\ (0 < total snd l -> c < len) /\ 0 <= rho /\
    sum_cos len k l = total snd l * rho * cos (2 * PI * c / len) /\
    sum_sin len k l = total snd l * rho * sin (2 * PI * c / len).
Proof.
  intros len k l HL HW. set (W := total snd l) in *. set (mi := minus_of l).
  set (y := - (sum_sin len k l / W)). set (x := - (sum_cos len k l / W)).
  destruct (atan2_spec mi y x) as (rho & Hr & Hx & Hy).
  exists (len * (atan2_num mi y x + PI) / (2 * PI)), rho.
  split; [apply axis_mass_num; [lra|assumption]|].
  assert (P := PI_RGT_0). assert (R := atan2_bounds mi y x).
  assert (E : len * (atan2_num mi y x + PI) / (2 * PI) * (2 * PI) = len * (atan2_num mi y x + PI)) by (field; lra).
  split; [split|split; [|split; [assumption|]]].
  - apply Rmult_le_pos; [apply Rmult_le_pos; lra|]. apply Rlt_le, Rinv_0_lt_compat. lra.
  - apply (Rmult_le_reg_r (2 * PI)); [lra|]. rewrite E. apply Rmult_le_compat_l; lra.
  - intro HP. assert (M : mi = true).
    { unfold mi, minus_of. destruct (Rlt_dec (total snd l) 0) as [D|D]; [|reflexivity]. unfold W in HP. lra. }
    destruct R as [R R']. specialize (R' M).
    apply (Rmult_lt_reg_r (2 * PI)); [lra|]. rewrite E. apply Rmult_lt_compat_l; lra.
  - replace (2 * PI * (len * (atan2_num mi y x + PI) / (2 * PI)) / len) with (atan2_num mi y x + PI) by (field; lra).
    rewrite neg_cos, neg_sin.
    replace (W * rho * - cos (atan2_num mi y x)) with (- W * (rho * cos (atan2_num mi y x))) by ring.
    replace (W * rho * - sin (atan2_num mi y x)) with (- W * (rho * sin (atan2_num mi y x))) by ring.
    rewrite <- Hx, <- Hy. unfold x, y. split; field; exact HW.
Qed.

Lemma axis_mass_circular : forall len k (l : list mass), 0 < len -> 0 < total snd l ->
  exists c, axis_mass true len k l = Num c /\ 0 <= c < len /\ circular_mean len k l c.
Proof.
  intros len k l HL HW. destruct (axis_mass_general len k l HL) as (c & rho & E & B & B' & Hr & C & S); [lra|].
  exists c. split; [assumption|]. specialize (B' HW). split; [lra|]. exists (total snd l * rho).
  split; [apply Rmult_le_pos; lra|]. auto.
Qed.

(** A circular mean of an unbalanced set is one point. *)
Lemma circular_mean_unique : forall len k (l : list mass) c c', 0 < len -> ~ balanced len k l ->
  circular_mean len k l c -> circular_mean len k l c' -> same_point len c c'.
Proof.
  intros len k l c c' HL NB (r & Hr & C & S) (r' & Hr' & C' & S').
  assert (r <> 0) by (intro; subst; apply NB; split; lra).
  destruct (polar_unique r r' _ _ Hr Hr' (eq_trans (eq_sym C) C') (eq_trans (eq_sym S) S') H) as [m M].
  exists m. assert (P := PI_RGT_0).
  apply (Rmult_eq_reg_l (2 * PI / len)).
  - replace (2 * PI / len * c') with (2 * PI * c' / len) by (field; lra). rewrite M. field. lra.
  - unfold Rdiv. apply Rmult_integral_contrapositive. split; [lra|]. apply Rinv_neq_0_compat. lra.
Qed.

Lemma same_point_range : forall len a b, 0 <= a < len -> 0 <= b < len -> same_point len a b -> a = b.
Proof.
  intros len a b A B [m M].
  assert (m = 0)%Z.
  { destruct (Z.lt_trichotomy m 0) as [H|[H|H]]; [|assumption|].
    - assert (IZR m <= -1) by (apply IZR_le; lia).
      assert (IZR m * len <= -1 * len) by (apply Rmult_le_compat_r; lra). lra.
    - assert (1 <= IZR m) by (apply IZR_le; lia).
      assert (1 * len <= IZR m * len) by (apply Rmult_le_compat_r; lra). lra. }
  subst. lra.
Qed.

(** Turning all positions by [t]. *)
Lemma sum_turn : forall len k (l l' : list mass) t, len <> 0 ->
  Forall2 (fun m m' => snd m' = snd m /\ coordinate k (fst m') = coordinate k (fst m) + t) l l' ->
  sum_cos len k l' = cos (2 * PI * t / len) * sum_cos len k l - sin (2 * PI * t / len) * sum_sin len k l /\
  sum_sin len k l' = sin (2 * PI * t / len) * sum_cos len k l + cos (2 * PI * t / len) * sum_sin len k l.
Proof.
  intros len k l l' t HL F. unfold sum_cos, sum_sin. induction F as [|m m' l l' [W X] F [IH1 IH2]]; cbn; [lra|].
  rewrite IH1, IH2, W, X.
  replace (2 * PI * (coordinate k (fst m) + t) / len)
    with (2 * PI * coordinate k (fst m) / len + 2 * PI * t / len) by (field; assumption).
  rewrite cos_plus, sin_plus. split; ring.
Qed.

Lemma circular_mean_turn : forall len k (l l' : list mass) t c, len <> 0 ->
  Forall2 (fun m m' => snd m' = snd m /\ coordinate k (fst m') = coordinate k (fst m) + t) l l' ->
  circular_mean len k l c -> circular_mean len k l' (c + t).
Proof.
  intros len k l l' t c HL F (r & Hr & C & S). exists r. split; [assumption|].
  destruct (sum_turn len k l l' t HL F) as [E1 E2]. rewrite E1, E2, C, S.
  replace (2 * PI * (c + t) / len) with (2 * PI * c / len + 2 * PI * t / len) by (field; assumption).
  rewrite cos_plus, sin_plus. split; ring.
Qed.

Lemma balanced_turn : forall len k (l l' : list mass) t, len <> 0 ->
  Forall2 (fun m m' => snd m' = snd m /\ coordinate k (fst m') = coordinate k (fst m) + t) l l' ->
  balanced len k l' -> balanced len k l.
Proof.
  intros len k l l' t HL F [C' S'].
  destruct (sum_turn len k l l' t HL F) as [E1 E2].
  rewrite C' in E1. rewrite S' in E2.
  set (a := cos (2 * PI * t / len)) in *. set (b := sin (2 * PI * t / len)) in *.
  assert (T : b * b + a * a = 1) by (exact (sin2_cos2 (2 * PI * t / len))).
  set (C := sum_cos len k l) in *. set (S := sum_sin len k l) in *.
  assert (a * (a * C - b * S) + b * (b * C + a * S) = C).
  { transitivity ((b * b + a * a) * C); [ring|]. rewrite T. ring. }
  assert (a * (b * C + a * S) - b * (a * C - b * S) = S).
  { transitivity ((b * b + a * a) * S); [ring|]. rewrite T. ring. }
  rewrite <- E1, <- E2 in H, H0. split; fold C S; lra.
Qed.

(** The window of less than half a box. *)
Lemma sum_sin_from : forall len k (l : list mass) a, len <> 0 ->
  total (fun m => snd m * sin (2 * PI * (coordinate k (fst m) - a) / len)) l
  = cos (2 * PI * a / len) * sum_sin len k l - sin (2 * PI * a / len) * sum_cos len k l.
Proof.
  intros len k l a HL. unfold sum_cos, sum_sin. rewrite <- !total_scal.
  induction l as [|m l IH]; cbn; [lra|]. rewrite IH.
  replace (2 * PI * (coordinate k (fst m) - a) / len)
    with (2 * PI * coordinate k (fst m) / len - 2 * PI * a / len) by (field; assumption).
  rewrite sin_minus. ring.
Qed.

Lemma sum_cos_from : forall len k (l : list mass) a, len <> 0 ->
  total (fun m => snd m * cos (2 * PI * (coordinate k (fst m) - a) / len)) l
  = cos (2 * PI * a / len) * sum_cos len k l + sin (2 * PI * a / len) * sum_sin len k l.
Proof.
  intros len k l a HL. unfold sum_cos, sum_sin. rewrite <- !total_scal.
  induction l as [|m l IH]; cbn; [lra|]. rewrite IH.
  replace (2 * PI * (coordinate k (fst m) - a) / len)
    with (2 * PI * coordinate k (fst m) / len - 2 * PI * a / len) by (field; assumption).
  rewrite cos_minus. ring.
Qed.

Lemma circular_mean_sin : forall len k (l : list mass) c a rho, len <> 0 ->
  sum_cos len k l = rho * cos (2 * PI * c / len) -> sum_sin len k l = rho * sin (2 * PI * c / len) ->
  total (fun m => snd m * sin (2 * PI * (coordinate k (fst m) - a) / len)) l
  = rho * sin (2 * PI * (c - a) / len).
Proof.
  intros len k l c a rho HL C S. rewrite sum_sin_from, C, S by assumption.
  replace (2 * PI * (c - a) / len) with (2 * PI * c / len - 2 * PI * a / len) by (field; assumption).
  rewrite sin_minus. ring.
Qed.

Lemma circular_mean_cos : forall len k (l : list mass) c a rho, len <> 0 ->
  sum_cos len k l = rho * cos (2 * PI * c / len) -> sum_sin len k l = rho * sin (2 * PI * c / len) ->
  total (fun m => snd m * cos (2 * PI * (coordinate k (fst m) - a) / len)) l
  = rho * cos (2 * PI * (c - a) / len).
Proof.
  intros len k l c a rho HL C S. rewrite sum_cos_from, C, S by assumption.
  replace (2 * PI * (c - a) / len) with (2 * PI * c / len - 2 * PI * a / len) by (field; assumption).
  rewrite cos_minus. ring.
Qed.

Lemma sin_le0_range : forall x, - (PI / 2) < x < PI -> 0 <= sin x -> 0 <= x.
Proof.
  intros x [A B] H. destruct (Rle_lt_dec 0 x) as [G|G]; [assumption|exfalso].
  assert (P := PI_RGT_0). assert (sin x < 0); [|lra]. apply sin_lt_0_var; lra.
Qed.

Lemma cos_pos_range : forall x, - PI <= x < PI -> 0 < cos x -> - (PI / 2) < x < PI / 2.
Proof.
  intros x [A B] H. assert (P := PI_RGT_0). split.
  - destruct (Rlt_le_dec (- (PI / 2)) x) as [G|G]; [assumption|exfalso].
    assert (cos x <= 0); [|lra]. rewrite <- cos_neg. apply cos_le_0; lra.
  - destruct (Rlt_le_dec x (PI / 2)) as [G|G]; [assumption|exfalso].
    assert (cos x <= 0); [|lra]. apply cos_le_0; lra.
Qed.

Lemma near : forall len c m, 0 < len -> exists n : Z, - (len / 2) <= c + IZR n * len - m < len / 2.
Proof.
  intros len c m HL. set (z := (c - m) / len + 1 / 2).
  exists (- Int_part z)%Z. destruct (base_Int_part z) as [A B].
  rewrite opp_IZR. set (i := IZR (Int_part z)) in *.
  assert (E : c - m = (z - 1 / 2) * len) by (unfold z; field; lra).
  replace (c + - i * len - m) with ((z - i - 1 / 2) * len) by (rewrite !Rmult_minus_distr_r in *; lra).
  split.
  - replace (- (len / 2)) with ((- (1 / 2)) * len) by field. apply Rmult_le_compat_r; lra.
  - replace (len / 2) with ((1 / 2) * len) by field. apply Rmult_lt_compat_r; lra.
Qed.

Lemma circular_mean_window : forall len k (l : list mass) a b c, 0 < len ->
  (forall m, In m l -> 0 <= snd m) -> 0 < total snd l ->
  (forall m, In m l -> a <= coordinate k (fst m) <= b) -> b - a < len / 2 ->
  circular_mean len k l c -> exists n : Z, a <= c + IZR n * len <= b.
Proof.
  intros len k l a b c HL W0 W HX HAB (rho & Hr & C & S).
  assert (P := PI_RGT_0). assert (NL : len <> 0) by lra.
  assert (AB : a <= b).
  { destruct l as [|m l]; [cbn in W; lra|]. assert (A := HX m (or_introl eq_refl)). lra. }
  set (mid := (a + b) / 2). set (h := (b - a) / 2).
  assert (TL : 0 < 2 * PI / len) by (apply Rdiv_lt_0_compat; lra).
  assert (SC : forall x y, x <= y -> 2 * PI * x / len <= 2 * PI * y / len).
  { intros x y H. replace (2 * PI * x / len) with (2 * PI / len * x) by (field; lra).
    replace (2 * PI * y / len) with (2 * PI / len * y) by (field; lra).
    apply Rmult_le_compat_l; lra. }
  assert (SL : forall x y, x < y -> 2 * PI * x / len < 2 * PI * y / len).
  { intros x y H. replace (2 * PI * x / len) with (2 * PI / len * x) by (field; lra).
    replace (2 * PI * y / len) with (2 * PI / len * y) by (field; lra).
    apply Rmult_lt_compat_l; lra. }
  set (w := 2 * PI * h / len).
  assert (Z0 : 2 * PI * 0 / len = 0) by (field; lra).
  assert (Z2 : 2 * PI * (len / 2) / len = PI) by (field; lra).
  assert (Z4 : 2 * PI * (len / 4) / len = PI / 2) by (field; lra).
  assert (S0 : forall x, 0 <= x -> 0 <= 2 * PI * x / len) by (intros x H; apply SC in H; lra).
  assert (SP : forall x, x <= len / 2 -> 2 * PI * x / len <= PI) by (intros x H; apply SC in H; lra).
  assert (SQ : forall x, x < len / 2 -> 2 * PI * x / len < PI) by (intros x H; apply SL in H; lra).
  assert (Hw : 0 <= w < PI / 2).
  { unfold w, h. split; [apply S0; lra|].
    assert (2 * PI * ((b - a) / 2) / len < 2 * PI * (len / 4) / len) by (apply SL; lra). lra. }
  (* the three sums *)
  assert (Cm := circular_mean_cos len k l c mid rho NL C S).
  assert (Sa := circular_mean_sin len k l c a rho NL C S).
  assert (Sb := circular_mean_sin len k l c b rho NL C S).
  assert (Pc : 0 < rho * cos (2 * PI * (c - mid) / len)).
  { rewrite <- Cm. apply Rlt_le_trans with (cos w * total snd l).
    - apply Rmult_lt_0_compat; [apply cos_gt_0; lra|assumption].
    - rewrite <- total_scal. apply total_le. intros m Hm. rewrite Rmult_comm.
      apply Rmult_le_compat_l; [now apply W0|].
      assert (Hx := HX m Hm).
      assert (U : - w <= 2 * PI * (coordinate k (fst m) - mid) / len <= w).
      { unfold w. replace (- (2 * PI * h / len)) with (2 * PI * (- h) / len) by (field; lra).
        split; apply SC; unfold h, mid; lra. }
      set (u := 2 * PI * (coordinate k (fst m) - mid) / len) in *.
      destruct (Rle_lt_dec 0 u) as [G|G].
      + apply cos_decr_1; lra.
      + rewrite <- (cos_neg u). apply cos_decr_1; lra. }
  assert (Hrho : 0 < rho) by (destruct Hr as [Hr|Hr]; [assumption|subst rho; lra]).
  assert (Pa : 0 <= sin (2 * PI * (c - a) / len)).
  { apply (Rmult_le_reg_l rho); [assumption|]. rewrite Rmult_0_r, <- Sa.
    apply total_nonneg. intros m Hm. apply Rmult_le_pos; [now apply W0|].
    assert (Hx := HX m Hm). apply sin_ge_0; [apply S0|apply SP]; lra. }
  assert (Pb : 0 <= - sin (2 * PI * (c - b) / len)).
  { apply (Rmult_le_reg_l rho); [assumption|]. rewrite Rmult_0_r.
    replace (rho * - sin (2 * PI * (c - b) / len)) with (- (rho * sin (2 * PI * (c - b) / len))) by ring.
    rewrite <- Sb.
    assert (E : forall X, 0 <= -1 * X -> 0 <= - X) by (intros; lra). apply E. rewrite <- total_scal.
    apply total_nonneg. intros m Hm.
    replace (-1 * (snd m * sin (2 * PI * (coordinate k (fst m) - b) / len)))
      with (snd m * sin (2 * PI * (b - coordinate k (fst m)) / len)).
    2: { replace (2 * PI * (b - coordinate k (fst m)) / len)
           with (- (2 * PI * (coordinate k (fst m) - b) / len)) by (field; lra).
         rewrite sin_antisym. ring. }
    apply Rmult_le_pos; [now apply W0|].
    assert (Hx := HX m Hm). apply sin_ge_0; [apply S0|apply SP]; lra. }
  destruct (near len c mid HL) as [n [N1 N2]]. exists n.
  set (c' := c + IZR n * len) in *. set (u := 2 * PI * (c' - mid) / len).
  assert (TC : forall x, 2 * PI * (c' - x) / len = 2 * PI * (c - x) / len + IZR n * (2 * PI)).
  { intro x. unfold c'. field. lra. }
  assert (Hu : - PI <= u < PI).
  { unfold u. split.
    - assert (E : 2 * PI * (- (len / 2)) / len = - PI) by (field; lra). apply SC in N1. lra.
    - now apply SQ. }
  assert (Cu : 0 < cos u).
  { unfold u. rewrite TC, cos_turn.
    apply (Rmult_lt_reg_l rho); [assumption|]. now rewrite Rmult_0_r. }
  assert (Ru := cos_pos_range u Hu Cu).
  assert (Eua : u + w = 2 * PI * (c' - a) / len) by (unfold u, w, h, mid; field; lra).
  assert (Eub : w - u = - (2 * PI * (c' - b) / len)) by (unfold u, w, h, mid; field; lra).
  assert (Sua : 0 <= sin (u + w)) by (rewrite Eua, TC, sin_turn; assumption).
  assert (Sub : 0 <= sin (w - u)) by (rewrite Eub, sin_antisym, TC, sin_turn; assumption).
  apply sin_le0_range in Sua; [|lra]. apply sin_le0_range in Sub; [|lra].
  assert (Q : forall x, 0 <= 2 * PI * x / len -> 0 <= x).
  { intros x H. destruct (Rle_lt_dec 0 x) as [G|G]; [assumption|].
    apply SL in G. lra. }
  split.
  - rewrite Eua in Sua. apply Q in Sua. lra.
  - rewrite Eub in Sub.
    replace (- (2 * PI * (c' - b) / len)) with (2 * PI * (b - c') / len) in Sub by (field; lra).
    apply Q in Sub. lra.
Qed.
