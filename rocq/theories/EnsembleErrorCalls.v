(** * EnsembleErrorCalls: every call keeps the two close *)

From Coq Require Import ZArith QArith Qcanon Qreals Reals List Bool Lia Lra.
From Flocq Require Import Core BinarySingleNaN.
From Verif Require Import Base BaseLemmas Array3 Array3Lemmas Path Double DoubleProofs Ensemble SpecEnsemble EnsembleFloat SpecDouble SpecError.
From Verif Require Import EnsembleFloatProofs EnsembleFloatTop EnsembleFloatMean DoubleError EnsembleError.
Import ListNotations.
Open Scope Z_scope.

Lemma moderate_medium : forall M, moderate M -> medium M /\ medium (M * M) /\ medium (4 * (M * M)).
Proof.
  intros M [L U]. pose proof (bpow_gt_0 radix2 (-400)) as P4.
  assert (S1 : (bpow radix2 (-800) <= M * M)%R) by (replace (-800) with (-400 + -400) by lia; rewrite bpow_plus; apply Rmult_le_compat; lra).
  assert (S2 : (M * M <= bpow radix2 800)%R) by (replace 800 with (400 + 400) by lia; rewrite bpow_plus; apply Rmult_le_compat; lra).
  assert (B1 : (bpow radix2 (-1000) <= bpow radix2 (-800))%R) by (apply bpow_le; lia).
  assert (B2 : (bpow radix2 (-1000) <= bpow radix2 (-400))%R) by (apply bpow_le; lia).
  assert (B3 : (bpow radix2 400 <= bpow radix2 900)%R) by (apply bpow_le; lia).
  assert (B4 : (4 * bpow radix2 800 <= bpow radix2 900)%R).
  { change 4%R with (bpow radix2 2). rewrite <- bpow_plus. apply bpow_le. lia. }
  pose proof (bpow_gt_0 radix2 800). pose proof (bpow_gt_0 radix2 (-800)). unfold medium. repeat split; lra.
Qed.

(** ** Points *)

Lemma S2_point_near : forall M k P F G F' G' Fm Gm e x p,
  moderate M -> 0 <= k -> k + 1 <= 2 ^ 50 -> sim (num M) F F' -> sim (num M) G G' -> bits Gm -> gsim (count false 0 (M * M)) k e x ->
  alike (gsim (count false 0 (M * M)) (k + 1)) (S2_point P F G Fm Gm e p) (fS2_point P F' G' Fm Gm x p).
Proof.
  intros M k P F G F' G' Fm Gm e x p HM HK HB SF SG BG HE. unfold S2_point, fS2_point.
  destruct (moderate_medium M HM) as (_ & HT & _). pose proof HM as [ML MU]. pose proof (bpow_gt_0 radix2 (-400)) as P4.
  apply alike_eq. intros m _. destruct (negb (m =? 0)). { cbn [alike]. eapply gsim_weaken; [|exact HE]. intros. eapply count_weaken; [eassumption|lia]. }
  eapply alike_bind. { apply window_sim with (R := num M); [apply num_zero; exact HM|exact SG]. } intros Gi Gi' HG. cbv beta in HG.
  apply alike_eq. intros Gw HW. pose proof (window_bits _ _ _ _ BG HW) as HB1.
  eapply alike_bind. { apply aget3_sim with (R := num M). exact SF. } intros f f' [Nf Bf].
  rewrite (number_zero f f' Nf). cbn [alike]. pose proof HE as HE'. gparts HE'. unfold gsim. cbn [set_data fset_data e_stat f_stat e_per f_per e_var f_var e_roi f_roi e_first e_norm e_second f_first f_norm f_second].
  repeat (split; [assumption|]). split; [|exact Hs].
  destruct (Qceq_b f 0%Qc).
  - apply grid_norm with (1 := Hg); [apply count_zero; lia|]. intros a b c q n y z HC. rewrite mask_zq.
    apply count_norm; auto; try lia; [|apply exactly_mask, HB1]. destruct (HB1 a b c) as [-> | ->]; lia.
  - apply grid_plus with (1 := Hg); [apply count_zero; lia|]. intros a b c q n y z HC. rewrite (mask_zq (Gw a b c)).
    apply count_plus; auto; try lia; try discriminate; [destruct (HB1 a b c) as [-> | ->]; lia| |apply exactly_mask, HB1].
    rewrite <- mask_zq. apply rel_masked; [lia| |apply HB1]. destruct (HG a b c) as [Ng Bg].
    apply approx_product; auto; try lra. split; [apply HT|]. apply Rle_trans with (1 := proj2 HT). apply bpow_le. lia.
Qed.

Lemma W2_point_near : forall M k P F G F' G' Gm e x p,
  moderate M -> 0 <= k -> k + 1 <= 2 ^ 50 -> sim (wnum M) F F' -> sim (num M) G G' -> bits Gm -> gsim (weigh M) k e x ->
  alike (gsim (weigh M) (k + 1)) (W2_point P F G Gm e p) (fW2_point P F' G' Gm x p).
Proof.
  intros M k P F G F' G' Gm e x p HM HK HB SF SG BG HE. unfold W2_point, fW2_point.
  eapply alike_bind. { apply window_sim with (R := num M); [apply num_zero; exact HM|exact SG]. } intros Gi Gi' HG. cbv beta in HG.
  apply alike_eq. intros Gw HW. pose proof (window_bits _ _ _ _ BG HW) as HB1.
  eapply alike_bind. { apply aget3_sim with (R := wnum M). exact SF. } intros f f' [Nf Bf].
  rewrite (number_zero f f' Nf). cbn [alike]. pose proof HE as HE'. gparts HE'. unfold gsim. cbn [set_data fset_data e_stat f_stat e_per f_per e_var f_var e_roi f_roi e_first e_norm e_second f_first f_norm f_second].
  repeat (split; [assumption|]). split; [|exact Hs].
  destruct (Qceq_b f 0%Qc) eqn:E.
  - apply grid_norm with (1 := Hg); [apply weigh_zero; auto; lia|]. intros a b c q n y z HC. apply weigh_none; auto.
    apply Qeq_bool_iff in E. rewrite (Qeq_eqR _ _ E). apply Q2R_0.
  - apply grid_plus with (1 := Hg); [apply weigh_zero; auto; lia|]. intros a b c q n y z HC. destruct (HG a b c) as [Ng Bg].
    apply weigh_plus; auto. destruct Bf as [Bf|Bf]; [|exact Bf]. exfalso.
    assert (Qceq_b f 0%Qc = true); [|congruence]. apply Qeq_bool_iff. apply eqR_Qeq. rewrite Bf. symmetry. apply Q2R_0.
Qed.

Lemma hh_point_near : forall L M k P F F' Fm e x p, close_squares L ->
  moderate M -> 0 <= k -> k + 1 <= 2 ^ 50 -> sim (num M) F F' -> bits Fm -> gsim (count true 2 (4 * (M * M))) k e x ->
  alike (gsim (count true 2 (4 * (M * M))) (k + 1)) (hh_point P F Fm e p) (fhh_point L P F' Fm x p).
Proof.
  intros L M k P F F' Fm e x p HL HM HK HB SF BF HE. unfold hh_point, fhh_point.
  destruct (moderate_medium M HM) as (_ & _ & HT).
  apply alike_eq. intros m _. destruct (negb (m =? 0)). { cbn [alike]. eapply gsim_weaken; [|exact HE]. intros. eapply count_weaken; [eassumption|lia]. }
  eapply alike_bind. { apply window_sim with (R := num M); [apply num_zero; exact HM|exact SF]. } intros Fi Fi' HF. cbv beta in HF.
  apply alike_eq. intros Fw HW. pose proof (window_bits _ _ _ _ BF HW) as HB1.
  eapply alike_bind. { apply aget3_sim with (R := num M). exact SF. } intros f f' [Nf Bf].
  cbn [alike]. pose proof HE as HE'. gparts HE'. unfold gsim. cbn [set_data fset_data e_stat f_stat e_per f_per e_var f_var e_roi f_roi e_first e_norm e_second f_first f_norm f_second].
  repeat (split; [assumption|]). split; [|rewrite <- Hvar; destruct (e_var e); [apply sim_any_plus; exact Hs|exact Hs]].
  apply grid_plus with (1 := Hg); [apply count_zero; lia|]. intros a b c q n y z HC. rewrite (mask_zq (Fw a b c)).
  assert (HJ : 0 <= 1 - Fw a b c <= 1) by (destruct (HB1 a b c) as [-> | ->]; lia).
  apply count_plus; auto; try lia; [| |apply exactly_mask, HB1].
  - rewrite <- mask_zq. apply rel_masked; [lia| |apply HB1]. destruct (HF a b c) as [Ng Bg]. change (1 + 2) with 3. apply approx_square; auto.
  - intros _. rewrite !Q2R_times, Q2R_zq. apply Rmult_le_pos; [apply Rle_0_sqr|]. apply (IZR_le 0). lia.
Qed.

(** ** Calls *)

Ltac gassertions HE := repeat (apply alike_assert; [first [reflexivity|eapply gsim_unlocked; exact HE|congruence]|]).

Lemma positions_near : forall C (F : ens -> Z * Z * Z -> res ens) (G : fens -> Z * Z * Z -> res fens) l K N B e x,
  lenZ l = N -> 0 <= K -> K + N <= B -> gsim C K e x ->
  (forall k e' x' p, 0 <= k -> k + 1 <= B -> gsim C k e' x' -> alike (gsim C (k + 1)) (F e' p) (G x' p)) ->
  alike (gsim C (K + N)) (foldM F l e) (foldM G l x).
Proof.
  intros C F G l K N B e x HN HK HB HE H. rewrite <- HN in *.
  apply (foldM_sim _ _ _ (fun k a b => gsim C (K + k) a b) F G (lenZ l) l 0); try lia.
  - intros k s t p _ Hk HR. rewrite Z.add_assoc. apply H; auto; lia.
  - rewrite Z.add_0_r. exact HE.
Qed.

(** The image, padded: in both models, or in neither. *)
Lemma padded : forall (R : Qc -> double -> Prop) f x (S : ens -> fens -> Prop) k l,
  alike (sim R) (to3 f) (to3 x) -> R 0%Qc dzero -> proper f ->
  (forall f3 f3', to3 f = Ok f3 -> sim R f3 f3' -> alike S (k f3) (l f3')) -> alike S (bind (to3 f) k) (bind (to3 x) l).
Proof.
  intros R f x S k l HA HZ Hp H. destruct (to3 f) as [f3| | |] eqn:E; destruct (to3 x) as [x3| | |]; cbn in HA |- *; try tauto. apply H; auto.
Qed.

Lemma padded2 : forall (R : Qc -> double -> Prop) f3 f3' per P (S : ens -> fens -> Prop) k l, sim R f3 f3' -> R 0%Qc dzero ->
  (forall F F', pad_mode per 0%Qc f3 P = Ok F -> sim R F F' -> alike S (k F) (l F')) ->
  alike S (bind (pad_mode per 0%Qc f3 P) k) (bind (pad_mode per dzero f3' P) l).
Proof.
  intros R f3 f3' per P S k l HS HZ H. pose proof (pad_mode_sim _ _ R per 0%Qc dzero f3 f3' P HZ HS) as A.
  destruct (pad_mode per 0%Qc f3 P) as [F| | |] eqn:E; destruct (pad_mode per dzero f3' P); cbn in A |- *; try tauto. apply H; auto.
Qed.

Lemma S2_near : forall M K asrt e x f g f' g' m n,
  moderate M -> 0 <= K -> K + zprod (i_shape f) <= 2 ^ 50 -> proper f ->
  same_image f f' -> same_image g g' -> bounded M f -> bounded M g -> zeros_ones m -> zeros_ones n -> gsim (count false 0 (M * M)) K e x ->
  alike (gsim (count false 0 (M * M)) (K + zprod (i_shape f))) (S2 asrt e f g m n) (fS2 asrt x f' g' m n).
Proof.
  intros M K asrt e x f g f' g' m n HM HK HB Hp Sf Sg If Ig Bm Bn HE. unfold S2, fS2.
  pose proof Sf as [Ef _]. pose proof Sg as [Eg _]. rewrite <- Ef, <- Eg. rewrite <- (gsim_roi_ok _ _ _ _ HE), <- (gsim_pad _ _ _ _ HE).
  pose proof HE as HE'. gparts HE'. rewrite <- Hroi, <- Hper. gassertions HE.
  apply alike_eq. intros [] _.
  destruct (image_rel (num M) f f' Sf) as [_ AF]; [intros; split; auto|]. destruct (image_rel (num M) g g' Sg) as [_ AG]; [intros; split; auto|].
  apply padded with (R := num M); auto using num_zero. intros f3 f3' E3 S3.
  eapply alike_bind; [exact AG|]. intros g3 g3' SG. apply alike_eq. intros m3 Em. apply alike_eq. intros n3 En.
  apply padded2 with (R := num M); auto using num_zero. intros F F' EF SF.
  apply padded2 with (R := num M); auto using num_zero. intros G G' _ SG2.
  rewrite <- (positions_sim _ _ _ _ _ _ SF).
  apply positions_near with (B := 2 ^ 50); auto.
  - eapply positions_length; eauto.
  - apply gsim_stat. exact HE.
  - intros. apply S2_point_near; auto. apply bits_pad. eapply bits_to3; eauto.
Qed.

Lemma W2_near : forall M K asrt e x f g f' g' n,
  moderate M -> 0 <= K -> K + zprod (i_shape f) <= 2 ^ 50 -> proper f ->
  same_image f f' -> same_image g g' -> weights M f -> bounded M g -> zeros_ones n -> gsim (weigh M) K e x ->
  alike (gsim (weigh M) (K + zprod (i_shape f))) (W2 asrt e f g n) (fW2 asrt x f' g' n).
Proof.
  intros M K asrt e x f g f' g' n HM HK HB Hp Sf Sg If Ig Bn HE. unfold W2, fW2.
  pose proof Sf as [Ef _]. pose proof Sg as [Eg _]. rewrite <- Ef, <- Eg. rewrite <- (gsim_roi_ok _ _ _ _ HE), <- (gsim_pad _ _ _ _ HE).
  pose proof HE as HE'. gparts HE'. rewrite <- Hroi, <- Hper. gassertions HE.
  apply alike_eq. intros [] _.
  destruct (image_rel (wnum M) f f' Sf) as [_ AF]; [intros; split; auto|]. destruct (image_rel (num M) g g' Sg) as [_ AG]; [intros; split; auto|].
  apply padded with (R := wnum M); auto using wnum_zero. intros f3 f3' E3 S3.
  eapply alike_bind; [exact AG|]. intros g3 g3' SG. apply alike_eq. intros n3 En.
  apply padded2 with (R := wnum M); auto using wnum_zero. intros F F' EF SF.
  apply padded2 with (R := num M); auto using num_zero. intros G G' _ SG2.
  rewrite <- (positions_sim _ _ _ _ _ _ SF).
  apply positions_near with (B := 2 ^ 50); auto.
  - eapply positions_length; eauto.
  - apply gsim_stat. exact HE.
  - intros. apply W2_point_near; auto. apply bits_pad. eapply bits_to3; eauto.
Qed.

Lemma hh_near : forall L M K asrt e x f f' m, close_squares L ->
  moderate M -> 0 <= K -> K + zprod (i_shape f) <= 2 ^ 50 -> proper f ->
  same_image f f' -> bounded M f -> zeros_ones m -> gsim (count true 2 (4 * (M * M))) K e x ->
  alike (gsim (count true 2 (4 * (M * M))) (K + zprod (i_shape f))) (heightheight asrt e f m) (fheightheight L asrt x f' m).
Proof.
  intros L M K asrt e x f f' m HL HM HK HB Hp Sf If Bm HE. unfold heightheight, fheightheight.
  pose proof Sf as [Ef _]. rewrite <- Ef. rewrite <- (gsim_roi_ok _ _ _ _ HE), <- (gsim_pad _ _ _ _ HE).
  pose proof HE as HE'. gparts HE'. rewrite <- Hroi, <- Hper. gassertions HE.
  apply alike_eq. intros [] _. destruct (image_rel (num M) f f' Sf) as [_ AF]; [intros; split; auto|].
  apply padded with (R := num M); auto using num_zero. intros f3 f3' E3 S3.
  apply alike_eq. intros m3 Em.
  apply padded2 with (R := num M); auto using num_zero. intros F F' EF SF.
  rewrite <- (positions_sim _ _ _ _ _ _ SF).
  apply positions_near with (B := 2 ^ 50); auto.
  - eapply positions_length; eauto.
  - apply gsim_stat. exact HE.
  - intros. apply hh_point_near; auto. apply bits_pad. eapply bits_to3; eauto.
Qed.

(** ** Mean *)

Lemma plus0_as : forall A v, plus0 A v = match dat A with [] => UB | y :: t => Ok (mkarr (d0 A) (d1 A) (d2 A) (upd 0 (y + v)%Qc (dat A))) end.
Proof. intros A v. unfold plus0, vget. cbn. destruct (dat A); reflexivity. Qed.
Lemma fplus0_as : forall A v, fplus0 A v = match dat A with [] => UB | y :: t => Ok (mkarr (d0 A) (d1 A) (d2 A) (upd 0 (dplus y v) (dat A))) end.
Proof. intros A v. unfold fplus0, vget. cbn. destruct (dat A); reflexivity. Qed.

Lemma mean_add : forall T k w e x (v s : Qc) (v' s' : double) j t, medium T -> 0 <= w -> k + w <= 2 ^ 50 ->
  gsim (count false 0 T) k e x -> 0 <= j <= w -> rel 0 T j v v' -> exactly j (zq j) t ->
  alike (gsim (count false 0 T) (k + w))
    (a <- plus0 (e_first e) v ;; b <- plus0 (e_second e) s ;; c <- plus0 (e_norm e) (zq j) ;; Ok (set_data (set_stat e S_mean) a b c))
    (a <- fplus0 (f_first x) v' ;; b <- fplus0 (f_second x) s' ;; c <- fplus0 (f_norm x) t ;; Ok (fset_data (fset_stat x S_mean) a b c)).
Proof.
  intros T k w e x v s v' s' j t HT Hw HB HE Hj HR Ht. pose proof HE as HE'. gparts HE'. rewrite !plus0_as, !fplus0_as.
  pose proof Hg as (W1 & W2 & W3 & W4 & D1 & D2 & D3 & HC).
  assert (LL : lenZ (dat (e_norm e)) = lenZ (dat (e_first e)) /\ lenZ (dat (f_first x)) = lenZ (dat (e_first e)) /\ lenZ (dat (f_norm x)) = lenZ (dat (e_first e))).
  { destruct W1 as (_ & _ & _ & L1), W2 as (_ & _ & _ & L2), W3 as (_ & _ & _ & L3), W4 as (_ & _ & _ & L4).
    destruct D1 as (-> & -> & ->) in L2. destruct D2 as (-> & -> & ->) in L3. destruct D3 as (-> & -> & ->) in L4. lia. }
  destruct LL as (L2 & L3 & L4). unfold lenZ in L2, L3, L4.
  destruct (dat (e_first e)) as [|q l] eqn:E1; [destruct (dat (f_first x)); [exact I|cbn in L3; lia]|].
  destruct (dat (f_first x)) as [|y l'] eqn:E2; [cbn in L3; lia|]. cbn [bind].
  pose proof Hs as (G0 & G1 & G2 & HF). 
  destruct (dat (e_second e)) as [|q2 l2] eqn:E3; [inversion HF; exact I|]. destruct (dat (f_second x)) as [|y2 l2'] eqn:E4; [inversion HF|]. cbn [bind].
  destruct (dat (e_norm e)) as [|m n] eqn:E5; [cbn in L2; lia|]. destruct (dat (f_norm x)) as [|z n'] eqn:E6; [cbn in L4; lia|]. cbn [bind alike].
  unfold gsim. cbn [set_data fset_data set_stat fset_stat e_stat f_stat e_per f_per e_var f_var e_roi f_roi e_first e_norm e_second f_first f_norm f_second].
  split; [reflexivity|]. repeat (split; [assumption|]). split.
  - rewrite <- E1, <- E2, <- E5, <- E6. change 0%nat with (Z.to_nat 0). apply grid_upd with (1 := Hg).
    + intros. eapply count_weaken; [eassumption|lia].
    + rewrite E1. unfold lenZ. cbn [length]. lia.
    + apply count_plus; auto; try lia; try discriminate. specialize (HC 0%nat). rewrite ?E1, ?E2, ?E5, ?E6 in HC. exact HC.
  - split; [exact G0|]. split; [exact G1|]. split; [exact G2|]. cbn [dat upd]. inversion HF; subst. constructor; auto.
Qed.

Lemma any_total : forall L T qc l, any_order L -> medium T ->
  Forall2 (fun (p : Qc * Z) y => 0 <= snd p /\ rel 0 T (snd p) (fst p) y) qc l ->
  zsum (map snd qc) <= 2 ^ 50 -> rel 0 T (zsum (map snd qc)) (qsum (map fst qc)) (total L l).
Proof. intros L T qc l HL HT HF HB. apply rel_adds with (l := l); auto; lia. Qed.

Lemma rel_value : forall M q x, num M q x -> rel 0 M 1 q x.
Proof. intros M q x [N B]. apply rel_term; [lia|]. pose proof (Rabs_pos (Q2R (this q))). apply approx_weaken with 0 M; [apply approx_value; auto|lia|lra]. Qed.

Lemma ones_sum : forall l, zsum (map snd (map (fun q : Qc => (q, 1)) l)) = lenZ l.
Proof. induction l as [|a l IH]; [reflexivity|]. cbn [map snd zsum]. unfold lenZ in *. cbn [length]. rewrite IH. lia. Qed.

Lemma exactly_nat : forall j, 0 <= j <= 2 ^ 53 -> exactly j (zq j) (dz j).
Proof. intros j H. eapply exactly_weaken; [apply exactly_dz; lia|lia]. Qed.

Lemma mean_near : forall L M K asrt e x f f', any_order L ->
  moderate M -> 0 <= K -> K + zprod (i_shape f) <= 2 ^ 50 -> proper f -> same_image f f' -> bounded M f -> gsim (count false 0 M) K e x ->
  alike (gsim (count false 0 M) (K + zprod (i_shape f))) (mean asrt e f) (fmean L asrt x f').
Proof.
  intros L M K asrt e x f f' HL HM HK HB [HN HP] Sf If HE. unfold mean, fmean. destruct (moderate_medium M HM) as (HT & _ & _).
  destruct (gsim_dims _ _ _ _ HE) as (E0 & E1 & E2). rewrite E0, E1, E2. gassertions HE.
  destruct (image_rel (num M) f f' Sf) as [HX _]; [intros; split; auto|]. rewrite <- HP in *.
  pose proof (Forall2_lenZ _ _ _ _ _ HX) as EL. rewrite <- EL. assert (0 <= lenZ (i_vals f)) by (unfold lenZ; lia).
  apply mean_add; auto; try lia; [|apply exactly_nat; lia].
  pose proof (any_total L M (map (fun q => (q, 1)) (i_vals f)) (i_vals f') HL HT) as A. rewrite ones_sum, map_map in A. cbn [fst] in A. rewrite map_id in A.
  apply A; [|lia]. clear - HX. induction HX; cbn [map]; constructor; auto. cbn [fst snd]. split; [lia|]. apply rel_value. assumption.
Qed.

Lemma mean_masked_near : forall L M K asrt e x f f' m, any_order L ->
  moderate M -> 0 <= K -> K + zprod (i_shape f) <= 2 ^ 50 -> proper f -> proper m -> zeros_ones m ->
  same_image f f' -> bounded M f -> gsim (count false 0 M) K e x ->
  alike (gsim (count false 0 M) (K + zprod (i_shape f))) (mean_masked asrt e f m) (fmean_masked L asrt x f' m).
Proof.
  intros L M K asrt e x f f' m HL HM HK HB [HN HP] [HNm HPm] Bm Sf If HE. unfold mean_masked, fmean_masked. destruct (moderate_medium M HM) as (HT & _ & _).
  destruct (gsim_dims _ _ _ _ HE) as (E0 & E1 & E2). rewrite E0, E1, E2. pose proof Sf as [Es _]. rewrite <- Es. gassertions HE.
  destruct (shape_eqb (i_shape f) (i_shape m)) eqn:ES; cbn [negb]; [|exact I].
  assert (ESh : i_shape m = i_shape f).
  { revert ES. generalize (i_shape m) (i_shape f). clear. intros a b. revert a. induction b as [|y b IH]; intros [|z a] H; cbn in H; try discriminate; auto.
    apply andb_prop in H. destruct H as [H1 H2]. apply Z.eqb_eq in H1. f_equal; auto. }
  rewrite ESh in HPm. destruct (image_rel (num M) f f' Sf) as [HX _]; [intros; split; auto|]. rewrite <- HP in *.
  set (j := zsum (map (fun m => 1 - m) (i_vals m))).
  assert (HJ : 0 <= j <= lenZ (i_vals f)).
  { unfold j. rewrite <- HPm. clear - Bm. unfold zeros_ones in Bm. revert Bm. induction (i_vals m) as [|z l IH]; intros B; [cbn; lia|].
    cbn [map zsum]. destruct (B z (or_introl eq_refl)); unfold lenZ in *; cbn [length]; specialize (IH (fun x H => B x (or_intror H))); lia. }
  cbv zeta. apply mean_add; auto; try lia; [|apply exactly_nat; lia].
  set (qc := map (fun x : Qc * Z => (if snd x =? 0 then fst x else 0%Qc, 1 - snd x)) (combine (i_vals f) (i_vals m))).
  pose proof (any_total L M qc (map (fun x => if snd x =? 0 then fst x else dzero) (combine (i_vals f') (i_vals m))) HL HT) as A.
  assert (EJ : zsum (map snd qc) = j).
  { unfold qc, j. rewrite map_map. cbn [snd]. assert (EL : lenZ (i_vals f) = lenZ (i_vals m)) by congruence. clear - EL. revert EL. generalize (i_vals f).
    induction (i_vals m) as [|z l IH]; intros [|y l'] EL; unfold lenZ in EL; cbn in EL; try lia; [reflexivity|]. cbn [combine map zsum snd]. f_equal. apply IH. unfold lenZ. lia. }
  rewrite EJ in A. unfold qc in A. rewrite map_map in A. cbn [fst] in A. apply A; [|lia].
  clear - HX Bm HM. unfold zeros_ones in Bm. revert HX Bm. generalize (i_vals f) (i_vals f') (i_vals m). intros l l' n HX. revert n. induction HX as [|a b l l' Hab HX IH]; intros [|z t] B; cbn; constructor; auto.
  - cbn [fst snd]. destruct (B z (or_introl eq_refl)) as [-> | ->]; cbn; split; try lia; [apply rel_value; exact Hab|apply rel_zero; lia].
  - apply IH. intros y Hy. apply B. right. exact Hy.
Qed.

(** ** W2c *)

Definition psim (T : R) (k : Z) (p : arr Qc * arr Qc) (p' : arr double * arr double) : Prop :=
  grid (count false 0 T k) (fst p) (snd p) (fst p') (snd p').

Lemma psim_weaken : forall T k l p p', psim T k p p' -> k <= l -> psim T l p p'.
Proof. intros T k l p p' H L. eapply grid_weaken; [|exact H]. intros. eapply count_weaken; eauto. Qed.

Lemma norm_outcome : forall R A B A' B' h i j, grid R A B A' B' -> alike (fun _ _ => True) (incr B h i j 1%Qc) (fincr B' h i j done).
Proof.
  intros R A B A' B' h i j (W1 & W2 & W3 & W4 & (E0 & E1 & E2) & D2 & (K0 & K1 & K2) & HC). rewrite incr_as, fincr_as.
  destruct W2 as (_ & _ & _ & L2), W4 as (_ & _ & _ & L4). rewrite E0, E1, E2 in L2. rewrite K0, K1, K2, <- L2 in L4.
  assert (EO : stride_off B' h i j = stride_off B h i j) by (unfold stride_off; rewrite E0, E1, E2, K0, K1, K2; reflexivity).
  rewrite EO, L4. destruct ((stride_off B h i j <? 0) || (lenZ (dat B) <=? stride_off B h i j)); exact I.
Qed.

Lemma W2c_walk_near : forall M P C Fm F F' label x all rest q K A B, moderate M -> sim (num M) F F' -> 0 <= K -> psim M K A B ->
  K + lenZ rest <= 2 ^ 50 ->
  alike (psim M (K + lenZ rest)) (W2c_walk P C Fm F label x all rest q A) (fW2c_walk P C Fm F' label x all rest q B).
Proof.
  intros M P C Fm F F' label [[h i] j] all rest. destruct P as [[[p0 q0] [p1 q1]] [p2 q2]].
  induction rest as [|r rest IH]; intros q K A B HM SF HK H HB; cbn [W2c_walk fW2c_walk].
  - cbn [alike]. eapply psim_weaken; [exact H|unfold lenZ; cbn; lia].
  - assert (EL : lenZ (r :: rest) = 1 + lenZ rest) by (unfold lenZ; cbn [length]; lia). rewrite EL in *.
    assert (0 <= lenZ rest) by (unfold lenZ; lia).
    destruct r as [|dh [|di [|dj [|]]]]; try exact I.
    apply alike_eq. intros c _. cbv zeta. set (q' := if negb (c =? label) && (q <? 0) then 0 else q).
    apply alike_bind with (R := psim M (K + 1)).
    + destruct (0 <=? q'); [|cbn [alike]; eapply psim_weaken; [exact H|lia]].
      apply alike_eq. intros m _. destruct (m =? 0); [|cbn [alike]; eapply psim_weaken; [exact H|lia]].
      apply alike_eq. intros to _. destruct to as [|th [|ti [|tj [|]]]]; try exact I.
      destruct (moderate_medium M HM) as (HT & _ & _).
      pose proof (aget_sim _ _ (num M) F F' (h + dh) (i + di) (j + dj) SF) as HV.
      assert (HC : forall v v', num M v v' -> alike (psim M (K + 1))
        (n <- incr (snd A) (p0 + th) (p1 + ti) (p1 + tj) 1%Qc ;; f <- incr (fst A) (p0 + th) (p1 + ti) (p1 + tj) v ;; Ok (f, n))
        (n <- fincr (snd B) (p0 + th) (p1 + ti) (p1 + tj) done ;; f <- fincr (fst B) (p0 + th) (p1 + ti) (p1 + tj) v' ;; Ok (f, n))).
      { intros v v' Hv. apply grid_incr with (1 := H).
        - intros. eapply count_weaken; [eassumption|lia].
        - intros. change 1%Qc with (zq 1). apply count_plus; auto; try lia; try discriminate; [apply rel_value; exact Hv|apply (exactly_dz 1); lia]. }
      destruct (aget F (h + dh) (i + di) (j + dj)) as [v| | |]; destruct (aget F' (h + dh) (i + di) (j + dj)) as [v'| | |]; cbn in HV; try tauto.
      1: { specialize (HC v v' HV). revert HC. destruct (incr (snd A) (p0 + th) (p1 + ti) (p1 + tj) 1%Qc), (fincr (snd B) (p0 + th) (p1 + ti) (p1 + tj) done); cbn [bind alike]; auto. }
      all: pose proof (norm_outcome _ _ _ _ _ (p0 + th) (p1 + ti) (p1 + tj) H) as HN; revert HN;
        destruct (incr (snd A) (p0 + th) (p1 + ti) (p1 + tj) 1%Qc), (fincr (snd B) (p0 + th) (p1 + ti) (p1 + tj) done); cbn [bind alike]; auto.
    + intros a b Hab. replace (K + (1 + lenZ rest)) with (K + 1 + lenZ rest) by ring. apply IH; auto; lia.
Qed.

(** A loop whose turns all add the same bound, up to any limit. *)
Lemma loop_near : forall A S T (R : Z -> S -> T -> Prop) (F : S -> A -> res S) (G : T -> A -> res T) l w K B s t,
  0 <= w -> 0 <= K -> K + lenZ l * w <= B -> R K s t ->
  (forall k s t p, In p l -> 0 <= k -> k + w <= B -> R k s t -> alike (R (k + w)) (F s p) (G t p)) ->
  alike (R (K + lenZ l * w)) (foldM F l s) (foldM G l t).
Proof.
  intros A S T R F G l w K B s t Hw HK HB HR H.
  apply (foldM_sim _ _ _ (fun k a b => R (K + k * w) a b) F G (lenZ l) l 0); try lia.
  - intros k a b p Hp Hk Hab. replace (K + (k + 1) * w) with (K + k * w + w) by ring. apply H; auto; nia.
  - replace (K + 0 * w) with K by ring. exact HR.
Qed.

Lemma W2c_stamp_near : forall M P C Ce Fm F F' mode R K e x s N, moderate M -> sim (num M) F F' -> lenZ (positions P F) = N ->
  1 <= R -> 3 * Z.of_nat (path_fuel e) + 1 <= R ->
  0 <= K -> K + N * R <= 2 ^ 50 -> gsim (count false 0 M) K e x ->
  alike (gsim (count false 0 M) (K + N * R)) (W2c_stamp P C Ce Fm F mode e s) (fW2c_stamp P C Ce Fm F' mode x s).
Proof.
  intros M P C Ce Fm F F' mode R K e x s N HM SF HN HR HRf HK HB HE. unfold W2c_stamp, fW2c_stamp. rewrite <- (gsim_fuel _ _ _ _ HE).
  apply alike_eq. intros rows Hrows. apply path_rows in Hrows. assert (HL : lenZ rows <= R) by lia.
  assert (0 <= lenZ rows) by (unfold lenZ; lia). assert (0 <= N) by (rewrite <- HN; unfold lenZ; lia).
  pose proof HE as HE'. gparts HE'. rewrite <- (positions_sim _ _ _ _ _ _ SF).
  eapply alike_bind.
  { apply (loop_near _ _ _ (psim M) _ _ (positions P F) (lenZ rows) K (2 ^ 50)); auto; [rewrite HN; nia|].
    intros k a b p _ Hk Hkb Hab. unfold W2c_point, fW2c_point.
    apply alike_eq. intros label _. destruct (label =? 0); [cbn [alike]; eapply psim_weaken; [exact Hab|lia]|].
    apply alike_eq. intros c _. destruct (negb (c =? label)); [cbn [alike]; eapply psim_weaken; [exact Hab|lia]|].
    apply W2c_walk_near; auto. }
  intros a a' HA. rewrite HN in HA. cbn [alike]. unfold gsim. cbn [set_data fset_data e_stat f_stat e_per f_per e_var f_var e_roi f_roi e_first e_norm e_second f_first f_norm f_second].
  repeat (split; [assumption|]). split; [|exact Hs]. apply psim_weaken with (1 := HA). nia.
Qed.

Lemma frame_near : forall C A (F : ens -> A -> res ens) (G : fens -> A -> res fens) l w K B e x,
  0 <= w -> 0 <= K -> K + lenZ l * w <= B -> gsim C K e x ->
  (forall a p b, F a p = Ok b -> frame a b) ->
  (forall k a b p, 0 <= k -> k + w <= B -> frame e a -> gsim C k a b -> alike (gsim C (k + w)) (F a p) (G b p)) ->
  alike (gsim C (K + lenZ l * w)) (foldM F l e) (foldM G l x).
Proof.
  intros C A F G l w K B e x Hw HK HB HE HF H.
  eapply alike_weaken; [|apply (loop_near _ _ _ (fun k a b => frame e a /\ gsim C k a b) F G l w K B)]; auto.
  - cbv beta. intros a b [_ H']. exact H'.
  - split; [apply frame_refl|exact HE].
  - cbv beta. intros k a b p _ Hk Hkb [H1 H2]. specialize (H k a b p Hk Hkb H1 H2). pose proof (HF a p) as HFa.
    destruct (F a p) as [a'| | |], (G b p); cbn [alike] in *; try tauto. split; [|exact H]. eapply frame_trans; eauto.
Qed.

Lemma W2c_near : forall M K asrt e x c ce f f' m mode,
  let V := d0 (e_first e) * d1 (e_first e) * d2 (e_first e) in
  moderate M -> 0 <= K -> K + zprod (i_shape f) * (V * rows_max e) <= 2 ^ 50 -> proper f -> same_image f f' -> bounded M f -> gsim (count false 0 M) K e x ->
  alike (gsim (count false 0 M) (K + zprod (i_shape f) * (V * rows_max e))) (W2c asrt e c ce f m mode) (fW2c asrt x c ce f' m mode).
Proof.
  intros M K asrt e x c ce f f' m mode V HM HK HB Hp Sf If HE. unfold W2c, fW2c.
  pose proof Sf as [Ef _]. rewrite <- Ef. rewrite <- (gsim_roi_ok _ _ _ _ HE), <- (gsim_pad _ _ _ _ HE).
  destruct (gsim_dims _ _ _ _ HE) as (E0 & E1 & E2). rewrite E0, E1, E2.
  pose proof HE as HE'. gparts HE'. rewrite <- Hroi, <- Hper. gassertions HE.
  apply alike_eq. intros [] HR. apply froi_ok_pos in HR.
  destruct (image_rel (num M) f f' Sf) as [_ AF]; [intros; split; auto|].
  apply padded with (R := num M); auto using num_zero. intros f3 f3' E3 S3.
  apply alike_eq. intros m3 Em. apply alike_eq. intros c3 Ec. apply alike_eq. intros ce3 Ece.
  apply padded2 with (R := num M); auto using num_zero. intros F F' EF SF.
  apply alike_eq. intros Fm _. apply alike_eq. intros C _. apply alike_eq. intros Ce _.
  set (st := stamps (d0 (e_first e)) (d1 (e_first e)) (d2 (e_first e)) (e_pad e)).
  assert (HS : lenZ st <= V) by (apply stamps_length; lia). assert (0 <= lenZ st) by (unfold lenZ; lia).
  pose proof (proper_nonneg _ _ Hp) as HN0. assert (1 <= rows_max e) by (unfold rows_max; lia).
  set (N := zprod (i_shape f)) in *. set (R := rows_max e) in *.
  assert (HRM : 0 <= N * R) by nia.
  assert (HV : lenZ st * (N * R) <= N * (V * R)) by (replace (N * (V * R)) with (V * (N * R)) by ring; apply Z.mul_le_mono_nonneg_r; auto).
  eapply alike_weaken; [intros a b Hab; eapply gsim_weaken; [|exact Hab]; intros; eapply count_weaken; [eassumption|]|apply frame_near with (K := K) (w := N * R) (B := 2 ^ 50)]; auto; try lia.
  - apply gsim_stat. exact HE.
  - intros. eapply W2c_stamp_frame; eauto.
  - intros k a b p Hk Hkb HF' HE2. apply W2c_stamp_near; auto.
    + eapply positions_length; eauto.
    + rewrite (frame_fuel _ _ HF'). unfold R, rows_max, path_fuel. cbn [set_stat e_first]. lia.
Qed.
