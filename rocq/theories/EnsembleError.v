(** * EnsembleError: the model with doubles stays close to the exact one *)

From Coq Require Import ZArith QArith Qcanon Qreals Reals List Bool Lia Lra.
From Flocq Require Import Core BinarySingleNaN.
From Verif Require Import Base BaseLemmas Array3 Array3Lemmas Path Double DoubleProofs Ensemble SpecEnsemble EnsembleFloat SpecDouble SpecError.
From Verif Require Import EnsembleFloatProofs EnsembleFloatTop EnsembleFloatMean DoubleError.
Import ListNotations.
Open Scope Z_scope.

(** ** Arrays, cell by cell: first and norm together *)

Definition grid (R : Qc -> Qc -> double -> double -> Prop) (A B : arr Qc) (A' B' : arr double) : Prop :=
  wfa A /\ wfa B /\ wfa A' /\ wfa B' /\ same_dims A B /\ same_dims A A' /\ same_dims A B' /\
  forall i : nat, R (nth i (dat A) 0%Qc) (nth i (dat B) 0%Qc) (nth i (dat A') dzero) (nth i (dat B') dzero).

Lemma grid_weaken : forall (R S : Qc -> Qc -> double -> double -> Prop) A B A' B',
  (forall q m x y, R q m x y -> S q m x y) -> grid R A B A' B' -> grid S A B A' B'.
Proof. intros R S A B A' B' H (W1 & W2 & W3 & W4 & D1 & D2 & D3 & HC). unfold grid. repeat (split; [assumption|]). auto. Qed.

Lemma decode3 : forall n0 n1 n2 p, 0 <= n0 -> 0 <= n1 -> 0 <= n2 -> 0 <= p < n0 * n1 * n2 ->
  flat3 n1 n2 (p / (n1 * n2)) (p / n2 mod n1) (p mod n2) = p.
Proof.
  intros n0 n1 n2 p H0 H1 H2 Hp. assert (n2 <> 0) by nia. assert (n1 <> 0) by nia. unfold flat3.
  rewrite (Z.mul_comm n1 n2), <- Z.div_div by lia.
  pose proof (Z.div_mod (p / n2) n1 ltac:(lia)). pose proof (Z.div_mod p n2 ltac:(lia)). nia.
Qed.

Lemma nth_tab : forall A (d : A) n0 n1 n2 f i, 0 <= n0 -> 0 <= n1 -> 0 <= n2 -> (i < Z.to_nat (n0 * n1 * n2))%nat ->
  nth i (dat (tab n0 n1 n2 f)) d = f (Z.of_nat i / (n1 * n2)) (Z.of_nat i / n2 mod n1) (Z.of_nat i mod n2).
Proof.
  intros A d n0 n1 n2 f i H0 H1 H2 Hi. unfold tab. cbn [dat].
  set (g := fun p => f (p / (n1 * n2)) (p / n2 mod n1) (p mod n2)).
  rewrite nth_indep with (d' := g 0); [|rewrite map_length, zseq_length; lia]. rewrite map_nth. rewrite zseq_nth by lia. reflexivity.
Qed.

Lemma nth_at3 : forall A (d : A) a i, wfa a -> (i < Z.to_nat (d0 a * d1 a * d2 a))%nat ->
  nth i (dat a) d = at3 d a (Z.of_nat i / (d1 a * d2 a)) (Z.of_nat i / d2 a mod d1 a) (Z.of_nat i mod d2 a).
Proof.
  intros A d a i (H0 & H1 & H2 & HL) Hi. unfold at3. rewrite (decode3 (d0 a)) by lia. rewrite Nat2Z.id. reflexivity.
Qed.

Lemma tab_same : forall A (d : A) a, wfa a -> forall i, nth i (dat a) d = nth i (dat (tab (d0 a) (d1 a) (d2 a) (at3 d a))) d.
Proof.
  intros A d a W i. pose proof W as (H0 & H1 & H2 & HL). destruct (lt_dec i (Z.to_nat (d0 a * d1 a * d2 a))) as [L|L].
  - rewrite nth_tab by auto. apply nth_at3; auto.
  - rewrite !nth_overflow; auto; [|unfold lenZ in HL; lia]. destruct (tab_wfa _ (d0 a) (d1 a) (d2 a) (at3 d a) H0 H1 H2) as (_ & _ & _ & TL).
    unfold lenZ in TL. cbn [d0 d1 d2 tab] in TL. fold (tab (d0 a) (d1 a) (d2 a) (at3 d a)) in TL. lia.
Qed.

Lemma grid_tab : forall (R S : Qc -> Qc -> double -> double -> Prop) A B A' B' f g f' g',
  grid R A B A' B' -> S 0%Qc 0%Qc dzero dzero ->
  (forall a b c, R (at3 0%Qc A a b c) (at3 0%Qc B a b c) (at3 dzero A' a b c) (at3 dzero B' a b c) -> S (f a b c) (g a b c) (f' a b c) (g' a b c)) ->
  grid S (tab (d0 A) (d1 A) (d2 A) f) (tab (d0 B) (d1 B) (d2 B) g) (tab (d0 A') (d1 A') (d2 A') f') (tab (d0 B') (d1 B') (d2 B') g').
Proof.
  intros R S A B A' B' f g f' g' (W1 & W2 & W3 & W4 & (B0 & B1 & B2) & (C0 & C1 & C2) & (D0 & D1 & D2) & HC) HZ H.
  pose proof W1 as (H0 & H1 & H2 & HL). rewrite B0, B1, B2, C0, C1, C2, D0, D1, D2. unfold grid.
  repeat (split; [apply tab_wfa; assumption|]). do 3 (split; [repeat split|]).
  intros i. destruct (lt_dec i (Z.to_nat (d0 A * d1 A * d2 A))) as [L|L].
  - rewrite !nth_tab by auto. apply H. specialize (HC i).
    rewrite (nth_at3 _ 0%Qc A), (nth_at3 _ 0%Qc B), (nth_at3 _ dzero A'), (nth_at3 _ dzero B') in HC by (auto; rewrite ?B0, ?B1, ?B2, ?C0, ?C1, ?C2, ?D0, ?D1, ?D2; exact L).
    rewrite B1, B2, C1, C2, D1, D2 in HC. exact HC.
  - rewrite !nth_overflow; auto; unfold tab; cbn [dat]; rewrite map_length, zseq_length; lia.
Qed.

(** [A += v] on both, or on the norm only. *)
Lemma grid_plus : forall (R S : Qc -> Qc -> double -> double -> Prop) A B A' B' v w v' w',
  grid R A B A' B' -> S 0%Qc 0%Qc dzero dzero ->
  (forall a b c q m x y, R q m x y -> S (q + v a b c)%Qc (m + w a b c)%Qc (dplus x (v' a b c)) (dplus y (w' a b c))) ->
  grid S (plus A v) (plus B w) (fplus A' v') (fplus B' w').
Proof. intros R S A B A' B' v w v' w' HG HZ H. unfold plus, fplus. apply grid_tab with (1 := HG); auto. Qed.

Lemma grid_norm : forall (R S : Qc -> Qc -> double -> double -> Prop) A B A' B' w w',
  grid R A B A' B' -> S 0%Qc 0%Qc dzero dzero ->
  (forall a b c q m x y, R q m x y -> S q (m + w a b c)%Qc x (dplus y (w' a b c))) ->
  grid S A (plus B w) A' (fplus B' w').
Proof.
  intros R S A B A' B' w w' HG HZ H. pose proof HG as (W1 & W2 & W3 & W4 & D1 & D2 & D3 & HC).
  assert (HT : grid S (tab (d0 A) (d1 A) (d2 A) (at3 0%Qc A)) (plus B w) (tab (d0 A') (d1 A') (d2 A') (at3 dzero A')) (fplus B' w')).
  { unfold plus, fplus. apply grid_tab with (1 := HG); auto. }
  destruct HT as (T1 & T2 & T3 & T4 & E1 & E2 & E3 & TC). unfold grid. repeat (split; [assumption|]).
  intros i. specialize (TC i). rewrite <- !tab_same in TC by auto. exact TC.
Qed.

(** [+=] at one place, on both. *)
Lemma incr_as : forall m a b c v, incr m a b c v =
  if (stride_off m a b c <? 0) || (lenZ (dat m) <=? stride_off m a b c) then UB
  else Ok (mkarr (d0 m) (d1 m) (d2 m) (upd (Z.to_nat (stride_off m a b c)) (nth (Z.to_nat (stride_off m a b c)) (dat m) 0 + v)%Qc (dat m))).
Proof.
  intros m a b c v. unfold incr. cbv zeta. set (o := stride_off m a b c). unfold vget, vset. destruct (o <? 0) eqn:E; [reflexivity|]. cbn [orb].
  destruct (lenZ (dat m) <=? o) eqn:E2.
  - apply Z.leb_le in E2. replace (nth_error (dat m) (Z.to_nat o)) with (@None Qc) by (symmetry; apply nth_error_None; unfold lenZ in E2; lia). reflexivity.
  - apply Z.leb_gt in E2. rewrite (nth_error_nth' _ 0%Qc) by (unfold lenZ in E2; lia). cbn [bind]. reflexivity.
Qed.
Lemma fincr_as : forall m a b c v, fincr m a b c v =
  if (stride_off m a b c <? 0) || (lenZ (dat m) <=? stride_off m a b c) then UB
  else Ok (mkarr (d0 m) (d1 m) (d2 m) (upd (Z.to_nat (stride_off m a b c)) (dplus (nth (Z.to_nat (stride_off m a b c)) (dat m) dzero) v) (dat m))).
Proof.
  intros m a b c v. unfold fincr. cbv zeta. set (o := stride_off m a b c). unfold vget, vset. destruct (o <? 0) eqn:E; [reflexivity|]. cbn [orb].
  destruct (lenZ (dat m) <=? o) eqn:E2.
  - apply Z.leb_le in E2. replace (nth_error (dat m) (Z.to_nat o)) with (@None double) by (symmetry; apply nth_error_None; unfold lenZ in E2; lia). reflexivity.
  - apply Z.leb_gt in E2. rewrite (nth_error_nth' _ dzero) by (unfold lenZ in E2; lia). cbn [bind]. reflexivity.
Qed.

Lemma wfa_upd : forall A (a : arr A) n v, wfa a -> wfa (mkarr (d0 a) (d1 a) (d2 a) (upd n v (dat a))).
Proof. intros A a n v (H0 & H1 & H2 & HL). unfold wfa. cbn [d0 d1 d2 dat]. rewrite upd_lenZ. auto. Qed.

Lemma grid_upd : forall (R S : Qc -> Qc -> double -> double -> Prop) A B A' B' o q m x y,
  grid R A B A' B' -> (forall q m x y, R q m x y -> S q m x y) -> 0 <= o < lenZ (dat A) -> S q m x y ->
  grid S (mkarr (d0 A) (d1 A) (d2 A) (upd (Z.to_nat o) q (dat A))) (mkarr (d0 B) (d1 B) (d2 B) (upd (Z.to_nat o) m (dat B)))
         (mkarr (d0 A') (d1 A') (d2 A') (upd (Z.to_nat o) x (dat A'))) (mkarr (d0 B') (d1 B') (d2 B') (upd (Z.to_nat o) y (dat B'))).
Proof.
  intros R S A B A' B' o q m x y (W1 & W2 & W3 & W4 & D1 & D2 & D3 & HC) HW Ho HS. unfold grid.
  repeat (split; [apply wfa_upd; assumption|]). do 3 (split; [assumption|]). intros i. cbn [dat].
  destruct W1 as (_ & _ & _ & L1), W2 as (_ & _ & _ & L2), W3 as (_ & _ & _ & L3), W4 as (_ & _ & _ & L4).
  destruct D1 as (E0 & E1 & E2), D2 as (G0 & G1 & G2), D3 as (K0 & K1 & K2). rewrite E0, E1, E2 in L2. rewrite G0, G1, G2 in L3. rewrite K0, K1, K2 in L4.
  unfold lenZ in *. rewrite !upd_nth by lia. destruct (Nat.eqb (Z.to_nat o) i); auto.
Qed.

Lemma grid_incr : forall (R S : Qc -> Qc -> double -> double -> Prop) A B A' B' h i j v w,
  grid R A B A' B' -> (forall q m x y, R q m x y -> S q m x y) ->
  (forall q m x y, R q m x y -> S (q + v)%Qc (m + 1)%Qc (dplus x w) (dplus y done)) ->
  alike (fun p p' => grid S (fst p) (snd p) (fst p') (snd p'))
    (n <- incr B h i j 1%Qc ;; f <- incr A h i j v ;; Ok (f, n)) (n <- fincr B' h i j done ;; f <- fincr A' h i j w ;; Ok (f, n)).
Proof.
  intros R S A B A' B' h i j v w HG HW HS. rewrite !incr_as, !fincr_as.
  pose proof HG as (W1 & W2 & W3 & W4 & D1 & D2 & D3 & HC).
  destruct W1 as (_ & _ & _ & L1), W2 as (_ & _ & _ & L2), W3 as (_ & _ & _ & L3), W4 as (_ & _ & _ & L4).
  pose proof D1 as (E0 & E1 & E2). pose proof D2 as (G0 & G1 & G2). pose proof D3 as (K0 & K1 & K2). rewrite E0, E1, E2, <- L1 in L2. rewrite G0, G1, G2, <- L1 in L3. rewrite K0, K1, K2, <- L1 in L4.
  set (o := stride_off A h i j).
  assert (OB : stride_off B h i j = o) by (unfold o, stride_off; rewrite E0, E1, E2; reflexivity).
  assert (OA' : stride_off A' h i j = o) by (unfold o, stride_off; rewrite G0, G1, G2; reflexivity).
  assert (OB' : stride_off B' h i j = o) by (unfold o, stride_off; rewrite K0, K1, K2; reflexivity).
  rewrite OB, OA', OB', L2, L3, L4. destruct ((o <? 0) || (lenZ (dat A) <=? o)) eqn:E; cbn [bind alike]; [exact I|]. cbn [fst snd].
  apply orb_false_iff in E. destruct E as [EA EB]. apply Z.ltb_ge in EA. apply Z.leb_gt in EB.
  apply grid_upd with (1 := HG); auto.
Qed.

(** ** The counted statistics *)

(** [q]: sum of [n <= k] terms; [m]: [n].  [pos]: the terms are not negative. *)
Definition count (pos : bool) (a : Z) (T : R) (k : Z) (q m : Qc) (x y : double) : Prop :=
  exists n, 0 <= n <= k /\ m = zq n /\ is_finite y = true /\ B2R y = IZR n /\ rel a T n q x /\ (pos = true -> (0 <= Q2R (this q))%R).

Lemma count_zero : forall pos a T k, 0 <= a -> 0 <= k -> count pos a T k 0%Qc 0%Qc dzero dzero.
Proof. intros pos a T k Ha Hk. exists 0. split; [lia|]. do 3 (split; [reflexivity|]). split; [apply rel_zero; exact Ha|]. intros _. rewrite Q2R_0. lra. Qed.

Lemma count_weaken : forall pos a T k l q m x y, count pos a T k q m x y -> k <= l -> count pos a T l q m x y.
Proof. intros pos a T k l q m x y (n & H & H') L. exists n. split; [lia|exact H']. Qed.

Lemma norm_plus : forall n j y t, 0 <= n -> 0 <= j -> n + j <= 2 ^ 53 -> is_finite y = true -> B2R y = IZR n -> exactly j (zq j) t ->
  is_finite (dplus y t) = true /\ B2R (dplus y t) = IZR (n + j).
Proof.
  intros n j y t Hn Hj HB Fy Vy Ht. assert (Hy : exactly n (zq n) y) by (split; auto; exists n; repeat split; auto; lia).
  pose proof (exactly_plus _ _ _ _ _ _ Hy Ht HB) as (F & z & E & V & _). rewrite zq_plus in E. apply zq_inj in E. subst z. auto.
Qed.

Lemma rel_more : forall a T n j q x, (0 <= T)%R -> 0 <= a -> 0 <= n -> 0 <= j -> rel a T n q x -> rel a T (n + j) q x.
Proof.
  intros a T n j q x HT Ha Hn Hj H. unfold rel in *. apply approx_weaken with (1 := H); [lia|].
  apply Rmult_le_compat_r; [exact HT|]. apply IZR_le. lia.
Qed.

Lemma count_plus : forall pos a T k w q m x y j r z t, medium T -> 0 <= a <= 2 -> k + w <= 2 ^ 50 -> count pos a T k q m x y ->
  0 <= j <= w -> rel a T j r z -> (pos = true -> (0 <= Q2R (this r))%R) -> exactly j (zq j) t ->
  count pos a T (k + w) (q + r)%Qc (m + zq j)%Qc (dplus x z) (dplus y t).
Proof.
  intros pos a T k w q m x y j r z t HT Ha HB (n & Hn & -> & Fy & Vy & HR & HP) Hj Hr Hpr Ht.
  destruct (norm_plus n j y t ltac:(lia) ltac:(lia) ltac:(lia) Fy Vy Ht) as [F V].
  exists (n + j). split; [lia|]. split; [apply zq_plus|]. split; [exact F|]. split; [exact V|]. split.
  - apply rel_plus; auto; lia.
  - intros E. rewrite Q2R_plus. specialize (HP E). specialize (Hpr E). lra.
Qed.

Lemma count_norm : forall pos a T k w q m x y j t, medium T -> 0 <= a <= 2 -> k + w <= 2 ^ 50 -> count pos a T k q m x y ->
  0 <= j <= w -> exactly j (zq j) t -> count pos a T (k + w) q (m + zq j)%Qc x (dplus y t).
Proof.
  intros pos a T k w q m x y j t HT Ha HB (n & Hn & -> & Fy & Vy & HR & HP) Hj Ht. pose proof (medium_pos T HT).
  destruct (norm_plus n j y t ltac:(lia) ltac:(lia) ltac:(lia) Fy Vy Ht) as [F V].
  exists (n + j). split; [lia|]. split; [apply zq_plus|]. split; [exact F|]. split; [exact V|]. split; [|exact HP].
  apply rel_more; auto; [lra|lia|lia|lia].
Qed.

Lemma exactly_mask : forall m, m = 0 \/ m = 1 -> exactly (1 - m) (zq (1 - m)) (inverse m).
Proof.
  intros m H. destruct (exactly_inverse m H) as (F & z & E & V & _). change 1%Qc with (zq 1) in E. rewrite zq_minus in E. apply zq_inj in E. subst z.
  split; [exact F|]. exists (1 - m). repeat split; auto. destruct H; subst m; cbn; lia.
Qed.

Lemma mask_zq : forall m, (1 - zq m)%Qc = zq (1 - m).
Proof. intros m. rewrite <- zq_minus. reflexivity. Qed.

Lemma rel_masked : forall a T q x m, 0 <= a -> approx (1 + a) T q x -> m = 0 \/ m = 1 -> rel a T (1 - m) (q * (1 - zq m))%Qc (dtimes x (inverse m)).
Proof.
  intros a T q x m Ha H Hm. pose proof (exactly_inverse m Hm) as HI. destruct Hm as [->| ->].
  - change (1 - 0) with 1. apply rel_term; [exact Ha|]. apply approx_one with (2 := HI); auto.
  - change (1 - 1) with 0. unfold rel. rewrite Rmult_0_l. apply approx_weaken with 0 0%R; [apply approx_none with (1 := H) (2 := HI); reflexivity|lia|lra].
Qed.

(** ** The weighted statistic *)

Definition weigh (M : R) (k : Z) (q m : Qc) (x y : double) : Prop :=
  0 <= k /\ (0 <= Q2R (this m) <= IZR k * M)%R /\ approx k (Q2R (this m)) m y /\ approx k (M * Q2R (this m))%R q x.

Lemma weigh_zero : forall M k, moderate M -> 0 <= k -> weigh M k 0%Qc 0%Qc dzero dzero.
Proof.
  intros M k [HM _] Hk. pose proof (bpow_gt_0 radix2 (-400)). pose proof (IZR_le _ _ Hk) as K. cbn [IZR] in K.
  split; [exact Hk|]. rewrite Q2R_0, Rmult_0_r. split; [split; [lra|]; apply Rmult_le_pos; lra|]. split; apply approx_zero; auto; lra.
Qed.

Lemma weigh_weaken : forall M k l q m x y, moderate M -> weigh M k q m x y -> k <= l -> weigh M l q m x y.
Proof.
  intros M k l q m x y [HM _] (Hk & Hm & Hy & Hx) L. pose proof (bpow_gt_0 radix2 (-400)). pose proof (IZR_le _ _ L) as KL.
  split; [lia|]. split; [split; [lra|]; apply Rle_trans with (IZR k * M)%R; [lra|apply Rmult_le_compat_r; lra]|].
  split; [apply approx_weaken with (1 := Hy)|apply approx_weaken with (1 := Hx)]; try lia; lra.
Qed.

Lemma weigh_plus : forall M k q m x y w g w' g' b, moderate M -> 0 <= k -> k + 1 <= 2 ^ 50 -> weigh M k q m x y ->
  is_number w w' -> (bpow radix2 (-400) <= Q2R (this w) <= M)%R -> is_number g g' -> (Rabs (Q2R (this g)) <= M)%R -> b = 0 \/ b = 1 ->
  weigh M (k + 1) (q + w * g * (1 - zq b))%Qc (m + w * (1 - zq b))%Qc (dplus x (dtimes (dtimes w' g') (inverse b))) (dplus y (dtimes w' (inverse b))).
Proof.
  intros M k q m x y w g w' g' b HM Hk HB HW Nw Bw Ng Bg Hb. pose proof (exactly_inverse b Hb) as HI.
  pose proof HM as [ML MU]. pose proof (bpow_gt_0 radix2 (-400)) as P4.
  assert (AW : approx 0 (Q2R (this w)) w w') by (apply approx_value; auto; rewrite Rabs_pos_eq; lra).
  assert (AG : approx 1 (Q2R (this w) * M) (w * g)%Qc (dtimes w' g')).
  { apply approx_product; auto; try lra; [|rewrite Rabs_pos_eq; lra]. split.
    - apply Rle_trans with (bpow radix2 (-400) * bpow radix2 (-400))%R; [rewrite <- bpow_plus; apply bpow_le; lia|apply Rmult_le_compat; lra].
    - apply Rle_trans with (bpow radix2 400 * bpow radix2 400)%R; [apply Rmult_le_compat; lra|rewrite <- bpow_plus; apply bpow_le; lia]. }
  destruct Hb as [->| ->].
  - pose proof (approx_one _ _ _ _ _ _ AW HI eq_refl) as A1. pose proof (approx_one _ _ _ _ _ _ AG HI eq_refl) as A2.
    destruct HW as (_ & Hm & Hy & Hx). replace (w * (1 - zq 0))%Qc with w in * by (change (1 - zq 0)%Qc with 1%Qc; ring).
    assert (HS : (Q2R (this m) + Q2R (this w) <= bpow radix2 50 * bpow radix2 400)%R).
    { apply Rle_trans with (IZR (k + 1) * M)%R; [rewrite plus_IZR; lra|]. apply Rmult_le_compat; [apply IZR_le; lia|lra| |lra].
      rewrite <- IZR_pow by lia. apply IZR_le. lia. }
    split; [lia|]. rewrite Q2R_plus. split; [rewrite plus_IZR; lra|]. split.
    + apply approx_weaken with (Z.max k 0 + 1) (Q2R (this m) + Q2R (this w))%R; [|lia|lra].
      apply approx_plus; auto; try lia. apply Rle_trans with (1 := HS). rewrite <- bpow_plus. apply bpow_le. lia.
    + replace (M * (Q2R (this m) + Q2R (this w)))%R with (M * Q2R (this m) + Q2R (this w) * M)%R by ring.
      destruct (Z.eq_dec k 0) as [->|NK].
      * assert (M0 : Q2R (this m) = 0%R) by (cbn [IZR] in Hm; lra). rewrite M0, Rmult_0_r in *. rewrite Rplus_0_l.
        apply approx_nothing_plus with (1 := Hx). exact A2.
      * apply approx_weaken with (Z.max k 1 + 1) (M * Q2R (this m) + Q2R (this w) * M)%R; [|lia|lra].
        apply approx_plus; auto; try lia. replace (M * Q2R (this m) + Q2R (this w) * M)%R with (M * (Q2R (this m) + Q2R (this w)))%R by ring.
        apply Rle_trans with (bpow radix2 400 * (bpow radix2 50 * bpow radix2 400))%R; [apply Rmult_le_compat; lra|rewrite <- !bpow_plus; apply bpow_le; lia].
  - pose proof (approx_none _ _ _ _ _ _ AW HI eq_refl) as A1. pose proof (approx_none _ _ _ _ _ _ AG HI eq_refl) as A2.
    assert (E : Q2R (this (m + w * (1 - zq 1)))%Qc = Q2R (this m)).
    { replace (w * (1 - zq 1))%Qc with 0%Qc by (change (1 - zq 1)%Qc with 0%Qc; ring). f_equal. f_equal. ring. }
    apply weigh_weaken with k; auto; try lia. destruct HW as (H0 & Hm & Hy & Hx). unfold weigh. rewrite E. split; [exact H0|]. split; [exact Hm|].
    split; [apply approx_plus_nothing with (2 := A1)|apply approx_plus_nothing with (2 := A2)]; assumption.
Qed.

Lemma weigh_none : forall M k q m x y w w' b, moderate M -> weigh M k q m x y -> is_number w w' -> Q2R (this w) = 0%R -> b = 0 \/ b = 1 ->
  weigh M (k + 1) q (m + w * (1 - zq b))%Qc x (dplus y (dtimes w' (inverse b))).
Proof.
  intros M k q m x y w w' b HM HW Nw E Hb. pose proof (exactly_inverse b Hb) as HI.
  assert (AW : approx 0 0 w w') by (apply approx_value; auto; rewrite E, Rabs_R0; lra).
  assert (A1 : approx 0 0 (w * (1 - zq b))%Qc (dtimes w' (inverse b))).
  { destruct Hb as [->| ->]; [apply approx_one with (2 := HI); auto|apply approx_none with (1 := AW) (2 := HI); reflexivity]. }
  assert (E2 : Q2R (this (m + w * (1 - zq b)))%Qc = Q2R (this m)) by (rewrite Q2R_plus, Q2R_times, E; ring).
  apply weigh_weaken with k; auto; [|lia]. destruct HW as (H0 & Hm & Hy & Hx). unfold weigh. rewrite E2. repeat (split; [assumption|]).
  split; [apply approx_plus_nothing with (2 := A1)|]; assumption.
Qed.

(** ** The state *)

Definition gsim (C : Z -> Qc -> Qc -> double -> double -> Prop) (k : Z) (e : ens) (x : fens) : Prop :=
  e_stat e = f_stat x /\ e_per e = f_per x /\ e_var e = f_var x /\ e_roi e = f_roi x /\
  grid (C k) (e_first e) (e_norm e) (f_first x) (f_norm x) /\ sim (fun _ _ => True) (e_second e) (f_second x).

Ltac gparts H := destruct H as (Hstat & Hper & Hvar & Hroi & Hg & Hs).

Lemma gsim_weaken : forall (C : Z -> Qc -> Qc -> double -> double -> Prop) k l e x,
  (forall q m x y, C k q m x y -> C l q m x y) -> gsim C k e x -> gsim C l e x.
Proof. intros C k l e x H HE. gparts HE. unfold gsim. repeat (split; [assumption|]). split; [eapply grid_weaken; eauto|exact Hs]. Qed.

Lemma gsim_stat : forall C k e x s, gsim C k e x -> gsim C k (set_stat e s) (fset_stat x s).
Proof. intros C k e x s HE. gparts HE. unfold gsim. cbn. auto 10. Qed.

Lemma gsim_dims : forall C k e x, gsim C k e x -> d0 (f_first x) = d0 (e_first e) /\ d1 (f_first x) = d1 (e_first e) /\ d2 (f_first x) = d2 (e_first e).
Proof. intros C k e x (_ & _ & _ & _ & (_ & _ & _ & _ & _ & D & _) & _). exact D. Qed.

Lemma gsim_pad : forall C k e x, gsim C k e x -> e_pad e = f_pad x.
Proof. intros C k e x H. destruct (gsim_dims _ _ _ _ H) as (E0 & E1 & E2). unfold e_pad, f_pad. rewrite E0, E1, E2. reflexivity. Qed.
Lemma gsim_roi_ok : forall C k e x, gsim C k e x -> roi_ok e = froi_ok x.
Proof. intros C k e x H. destruct (gsim_dims _ _ _ _ H) as (E0 & E1 & E2). unfold roi_ok, froi_ok. rewrite E0, E1, E2. reflexivity. Qed.
Lemma gsim_fuel : forall C k e x, gsim C k e x -> path_fuel e = fpath_fuel x.
Proof. intros C k e x H. destruct (gsim_dims _ _ _ _ H) as (E0 & E1 & E2). unfold path_fuel, fpath_fuel. rewrite E0, E1, E2. reflexivity. Qed.
Lemma gsim_unlocked : forall C k e x s, gsim C k e x -> unlocked e s = funlocked x s.
Proof. intros C k e x s (E & _). unfold unlocked, funlocked. rewrite E. reflexivity. Qed.

Lemma sim_any_plus : forall A B v w, sim (fun _ _ => True) A B -> sim (fun (_ : Qc) (_ : double) => True) (plus A v) (fplus B w).
Proof. intros A B v w (E0 & E1 & E2 & _). unfold plus, fplus. rewrite E0, E1, E2. apply tab_sim. auto. Qed.

Definition num (M : R) (q : Qc) (x : double) : Prop := is_number q x /\ (Rabs (Q2R (this q)) <= M)%R.
Definition wnum (M : R) (q : Qc) (x : double) : Prop := is_number q x /\ (Q2R (this q) = 0 \/ bpow radix2 (-400) <= Q2R (this q) <= M)%R.

Lemma num_zero : forall M, moderate M -> num M 0%Qc dzero.
Proof.
  intros M [HM _]. pose proof (bpow_gt_0 radix2 (-400)). split; [split; [reflexivity|]; rewrite Q2R_0; reflexivity|]. rewrite Q2R_0, Rabs_R0. lra.
Qed.
Lemma wnum_zero : forall M, wnum M 0%Qc dzero.
Proof. intros M. split; [split; [reflexivity|]; rewrite Q2R_0; reflexivity|]. left. apply Q2R_0. Qed.

Lemma number_zero : forall q x, is_number q x -> deq x dzero = Qceq_b q 0%Qc.
Proof.
  intros q x [F V]. unfold deq. rewrite Beqb_correct by auto. change (B2R dzero) with 0%R. rewrite V. unfold Qceq_b.
  destruct (Req_bool_spec (Q2R (this q)) 0) as [E|N].
  - symmetry. apply Qeq_bool_iff. apply eqR_Qeq. rewrite Q2R_0. exact E.
  - symmetry. apply not_true_is_false. intros T. apply N. apply Qeq_bool_iff in T. rewrite (Qeq_eqR _ _ T). apply Q2R_0.
Qed.

Lemma image_rel : forall (R : Qc -> double -> Prop) f x, same_image f x -> (forall q y, In q (i_vals f) -> is_number q y -> R q y) ->
  Forall2 R (i_vals f) (i_vals x) /\ alike (sim R) (to3 f) (to3 x).
Proof.
  intros R f x [E H] HI.
  assert (HF : Forall2 R (i_vals f) (i_vals x)).
  { revert HI. induction H as [|q d l m Hq H IH]; intros HI; constructor; [apply HI; [left; reflexivity|exact Hq]|]. apply IH. intros r y Hr. apply HI. right. exact Hr. }
  split; [exact HF|]. unfold to3, atleast_3d. rewrite <- E. destruct (shape3 (i_shape f)) as [[[n0 n1] n2]| | |]; cbn; auto. repeat split; auto.
Qed.
