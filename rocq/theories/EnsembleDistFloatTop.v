(** * EnsembleDistFloatTop: distances to the centre, in floating point *)

From Coq Require Import ZArith List Bool Lia Reals Lra Psatz.
From Flocq Require Import Core Relative BinarySingleNaN.
From Verif Require Import Base BaseLemmas Array3 Path SpecCluster SpecDilate SpecPath Double Ensemble SpecEnsemble EnsembleDist
  EnsembleFloat SpecDouble DoubleProofs EnsembleFloatProofs EnsembleFloatTop DoubleError StructureFreqProofs SpecCirclesFloat CirclesFloatProofs
  EnsembleDistFloat SpecDistFloat EnsembleDistFloatProofs.
Import ListNotations.
Open Scope Z_scope.

Local Notation rnd := (round radix2 (FLT_exp (-1074) 53) ZnearestE).
Local Notation u := (bpow radix2 (-53)).

(** ** The double next to a number *)

Lemma next_above : forall r y (z : double), next_to r y -> is_finite z = true -> (r <= B2R z)%R -> (B2R y <= B2R z)%R.
Proof. intros r y z [F [[A B]|[A B]]] Fz H; [lra|]. apply B; assumption. Qed.
Lemma next_below : forall r y (z : double), next_to r y -> is_finite z = true -> (B2R z <= r)%R -> (B2R z <= B2R y)%R.
Proof. intros r y z [F [[A B]|[A B]]] Fz H; [|lra]. apply B; assumption. Qed.
Lemma next_exact : forall r y (z : double), next_to r y -> is_finite z = true -> B2R z = r -> B2R y = r.
Proof. intros r y z H Fz E. pose proof (next_above r y z H Fz ltac:(lra)). pose proof (next_below r y z H Fz ltac:(lra)). lra. Qed.

Lemma grid : forall k, Z.abs k <= 2 ^ 53 -> exists z : double, is_finite z = true /\ B2R z = (IZR k / IZR (2 ^ 28))%R.
Proof.
  intros k H. destruct (whole_dz k H) as [F V]. destruct (whole_dz (2 ^ 28) ltac:(lia)) as [Fd Vd].
  assert (D : (IZR (2 ^ 28) = 268435456)%R) by reflexivity.
  assert (B : (Rabs (IZR k) <= bpow radix2 53)%R) by (rewrite <- abs_IZR, <- IZR_pow by lia; apply IZR_le; lia).
  assert (S : (Rabs (B2R (dz k) / B2R (dz (2 ^ 28))) <= bpow radix2 1000)%R).
  { rewrite V, Vd, D. unfold Rdiv. rewrite Rabs_mult, (Rabs_right (/ 268435456)) by lra.
    apply Rle_trans with (bpow radix2 53); [|apply bpow_le; lia]. pose proof (Rabs_pos (IZR k)). lra. }
  destruct (quotient_of (dz k) (dz (2 ^ 28)) F) as [Fq Vq]; [rewrite Vd, D; lra|exact S|].
  exists (ddiv (dz k) (dz (2 ^ 28))). split; [exact Fq|]. rewrite Vq, V, Vd.
  assert (E : (IZR k / IZR (2 ^ 28) = IZR k * bpow radix2 (-28))%R). { unfold Rdiv. f_equal. }
  rewrite E. apply round_generic; [apply valid_rnd_N|].
  destruct (Z.eq_dec (Z.abs k) (2 ^ 53)) as [M|M].
  - assert (K : k = 2 ^ 53 \/ k = - 2 ^ 53) by lia. destruct K as [-> | ->].
    + replace (IZR (2 ^ 53) * bpow radix2 (-28))%R with (bpow radix2 25).
      * apply generic_format_bpow. unfold FLT_exp. lia.
      * rewrite IZR_pow, <- bpow_plus by lia. reflexivity.
    + replace (IZR (- 2 ^ 53) * bpow radix2 (-28))%R with (- bpow radix2 25)%R.
      * apply generic_format_opp, generic_format_bpow. unfold FLT_exp. lia.
      * rewrite opp_IZR, IZR_pow, Ropp_mult_distr_l_reverse, <- bpow_plus by lia. reflexivity.
  - apply generic_format_FLT. apply (FLT_spec radix2 (-1074) 53 _ (Defs.Float radix2 k (-28))); cbn [Fnum Fexp]; [reflexivity| |lia].
    change (radix_val radix2 ^ 53) with (2 ^ 53). lia.
Qed.

(** ** Roots of different whole numbers are told apart *)

Lemma root_order : forall m n y z, 0 <= m -> m < n -> n <= 2 ^ 50 -> next_to (sqrt (IZR m)) y -> next_to (sqrt (IZR n)) z -> (B2R y < B2R z)%R.
Proof.
  intros m n y z Hm Hmn Hn Hy Hz. set (a := sqrt (IZR m)) in *. set (b := sqrt (IZR n)) in *.
  assert (A0 : (0 <= a)%R) by apply sqrt_pos. assert (B0 : (0 <= b)%R) by apply sqrt_pos.
  assert (A2 : (a * a = IZR m)%R) by (apply sqrt_sqrt, IZR_le; lia). assert (B2 : (b * b = IZR n)%R) by (apply sqrt_sqrt, IZR_le; lia).
  assert (G : (1 <= IZR n - IZR m)%R) by (rewrite <- minus_IZR; apply IZR_le; lia).
  assert (NB : (IZR n <= 1125899906842624)%R) by (apply IZR_le; lia).
  assert (BB : (b <= 33554432)%R) by nra. assert (AB : (a < b)%R) by nra.
  assert (GAP : (1 <= (b - a) * 67108864)%R) by nra.
  set (k := Zceil (a * 268435456)). set (l := Zfloor (b * 268435456)).
  pose proof (Zceil_ub (a * 268435456)) as K1. assert (K2 : (IZR k < a * 268435456 + 1)%R).
  { unfold k, Zceil. pose proof (Zfloor_ub (- (a * 268435456))). rewrite opp_IZR. lra. }
  pose proof (Zfloor_lb (b * 268435456)) as L1. pose proof (Zfloor_ub (b * 268435456)) as L2. fold k in K1. fold l in L1, L2.
  assert (KL : (IZR k < IZR l)%R) by lra. assert (K0 : (-1 < IZR k)%R) by lra. assert (LM : (IZR l <= 9007199254740992)%R) by lra.
  apply lt_IZR in KL. apply lt_IZR in K0. apply le_IZR in LM.
  destruct (grid k) as (p & Fp & Vp); [lia|]. destruct (grid l) as (q & Fq & Vq); [lia|]. change (IZR (2 ^ 28)) with 268435456%R in Vp, Vq.
  assert (Y : (B2R y <= B2R p)%R) by (apply (next_above a); auto; rewrite Vp; lra).
  assert (Z : (B2R q <= B2R z)%R) by (apply (next_below b); auto; rewrite Vq; lra).
  apply IZR_lt in KL. rewrite Vp in Y. rewrite Vq in Z. lra.
Qed.

Lemma root_same : forall R m x y, accurate R -> 0 <= m -> whole m x -> whole m y -> B2R (R x) = B2R (R y).
Proof.
  intros R m x y HR Hm [Fx Vx] [Fy Vy]. assert (M : (0 <= IZR m)%R) by (apply IZR_le; lia).
  destruct (Z.eq_dec m 0) as [->|NZ].
  - pose proof (HR x Fx ltac:(lra)) as X. pose proof (HR y Fy ltac:(lra)) as Y. rewrite Vx, sqrt_0 in X. rewrite Vy, sqrt_0 in Y.
    rewrite (next_exact 0 (R x) dzero X), (next_exact 0 (R y) dzero Y) by reflexivity. reflexivity.
  - assert (N : (IZR m <> 0)%R) by (apply not_0_IZR; exact NZ). f_equal. f_equal.
    assert (ST : forall v : double, is_finite v = true -> (B2R v <> 0)%R -> is_finite_strict v = true) by (intros [s|s| |s q e H] F V; cbn in *; congruence).
    apply B2R_inj; [apply ST; congruence|apply ST; congruence|congruence].
Qed.

(** ** [distance()] *)

Lemma pixels_whole : forall L x o, exact_squares L -> (length o <= 3)%nat ->
  (forall a, 0 <= a < lenZ o -> Z.abs (nth (Z.to_nat a) o 0) <= 2 ^ 24 /\ whole (nth (Z.to_nat a) o 0) (x a)) ->
  0 <= zsum (map (fun t => t * t) o) <= 3 * 2 ^ 48 /\
  whole (zsum (map (fun t => t * t) o)) (fold_left (fun acc a => dplus acc (pow2 L (x a))) (zrange 0 (lenZ o)) dzero).
Proof.
  intros L x o HL HO HX. assert (SQ : forall z y, Z.abs z <= 2 ^ 24 -> whole z y -> whole (z * z) (pow2 L y)).
  { intros z y B [F V]. apply (HL y z F V). nia. }
  assert (Z0 : whole 0 dzero) by (split; reflexivity).
  assert (S0 : forall z, Z.abs z <= 2 ^ 24 -> 0 <= z * z <= 2 ^ 48) by (intros; nia).
  destruct o as [|a [|b [|c [|? ?]]]]; cbn [length] in HO; try lia; unfold lenZ in *; cbn [length] in *.
  - split; [cbn; lia|exact Z0].
  - destruct (HX 0 ltac:(lia)) as [A0 A1]. cbn in A0, A1. pose proof (S0 a A0). split; [cbn; lia|]. change (zrange 0 (Z.of_nat 1)) with [0]. cbn [fold_left map zsum].
    apply (whole_eq (0 + a * a)); [|lia]. apply whole_plus; [exact Z0|apply SQ; assumption|lia].
  - destruct (HX 0 ltac:(lia)) as [A0 A1]. destruct (HX 1 ltac:(lia)) as [B0 B1]. cbn in A0, A1, B0, B1. pose proof (S0 a A0). pose proof (S0 b B0).
    split; [cbn [map zsum]; lia|]. change (zrange 0 (Z.of_nat 2)) with [0; 1]. cbn [fold_left map zsum].
    apply (whole_eq (0 + a * a + b * b)); [|lia]. repeat (apply whole_plus; [|apply SQ; assumption|lia]). exact Z0.
  - destruct (HX 0 ltac:(lia)) as [A0 A1]. destruct (HX 1 ltac:(lia)) as [B0 B1]. destruct (HX 2 ltac:(lia)) as [C0 C1]. cbn in A0, A1, B0, B1, C0, C1.
    pose proof (S0 a A0). pose proof (S0 b B0). pose proof (S0 c C0).
    split; [cbn [map zsum]; lia|]. change (zrange 0 (Z.of_nat 3)) with [0; 1; 2]. cbn [fold_left map zsum].
    apply (whole_eq (0 + a * a + b * b + c * c)); [|lia]. repeat (apply whole_plus; [|apply SQ; assumption|lia]). exact Z0.
Qed.

Lemma offset_length : forall roi r, length (offset roi r) = length roi.
Proof.
  intros roi r. unfold offset, diff, anchor. rewrite map_length, combine_length, map_length, CenterLabels.coords_length. lia.
Qed.
Lemma shape3_length : forall roi s, shape3 roi = Ok s -> (length roi <= 3)%nat.
Proof. intros [|a [|b [|c [|d roi]]]] s H; cbn in *; try discriminate; lia. Qed.

Lemma dn_map : forall (F : double -> double) l r, 0 <= r < lenZ l -> dn (map F l) r = F (dn l r).
Proof. intros F l r H. unfold dn. rewrite (nth_indep _ dzero (F dzero)) by (rewrite map_length; unfold lenZ in H; lia). apply map_nth. Qed.

(** C147: [distance()] *)
Lemma distance_whole : forall L w asrt roi per var e, freachable L asrt roi per var e -> exact_squares L -> accurate (pow_half L) ->
  Forall (fun n => 1 <= n <= 2 ^ 25) roi ->
  exists d, fdistance L w asrt e = Ok d /\ lenZ d = zprod roi /\
    (forall r, pixel roi r -> next_to (sqrt (IZR (pixels2 roi r))) (dn d r)) /\
    (forall r j, pixel roi r -> pixels2 roi r = j * j -> 0 <= j -> B2R (dn d r) = IZR j) /\
    (forall r r', pixel roi r -> pixel roi r' -> ((B2R (dn d r) < B2R (dn d r'))%R <-> pixels2 roi r < pixels2 roi r')).
Proof.
  intros L w asrt roi per var e HE HQ HR HF. destruct (freachable_shape _ _ _ _ _ _ HE) as (k0 & k1 & k2 & HK & HS).
  destruct (fsum_ok L w asrt roi k0 k1 k2 e (fun _ x => x) HS HK) as (s & Es & Ls & Vs); [eapply Forall_impl; [|exact HF]; cbn; intros; lia|].
  assert (W : forall r, pixel roi r -> 0 <= pixels2 roi r <= 3 * 2 ^ 48 /\ whole (pixels2 roi r) (dn s r)).
  { intros r Hr. destruct (Vs r Hr) as (x & X & ->). replace (lenZ roi) with (lenZ (offset roi r)) in * by (unfold lenZ; rewrite offset_length; reflexivity).
    apply pixels_whole; [exact HQ|rewrite offset_length; eapply shape3_length; exact HK|].
    intros a Ha. split; [|apply X; exact Ha]. apply offset_small; [eapply Forall_impl; [|exact HF]; cbn; intros; lia|exact Hr|].
    unfold lenZ in Ha. rewrite offset_length in Ha. lia. }
  unfold fdistance. rewrite Es, bind_Ok. eexists. split; [reflexivity|]. split; [unfold lenZ in *; rewrite map_length; exact Ls|].
  assert (N : forall r, pixel roi r -> next_to (sqrt (IZR (pixels2 roi r))) (dn (map (pow_half L) s) r)).
  { intros r Hr. destruct (W r Hr) as ([P0 _] & F & V). rewrite dn_map by (rewrite Ls; exact Hr). rewrite <- V. apply HR; [exact F|rewrite V; apply IZR_le; lia]. }
  split; [exact N|]. split.
  - intros r j Hr E Hj. specialize (N r Hr). destruct (W r Hr) as ([_ B] & _).
    assert (S : sqrt (IZR (pixels2 roi r)) = IZR j) by (rewrite E, mult_IZR; apply sqrt_square, IZR_le; lia). rewrite S in N.
    destruct (whole_dz j) as [F V]; [nia|]. apply (next_exact _ _ (dz j)); assumption.
  - intros r r' Hr Hr'. destruct (W r Hr) as ([A A'] & Wr). destruct (W r' Hr') as ([B B'] & Wr').
    split; [intros H|intros H; apply (root_order (pixels2 roi r) (pixels2 roi r')); auto; lia].
    destruct (Z_lt_le_dec (pixels2 roi r) (pixels2 roi r')) as [C|C]; [exact C|exfalso].
    destruct (Z.eq_dec (pixels2 roi r) (pixels2 roi r')) as [E|E].
    + rewrite !dn_map in H by (rewrite Ls; assumption). rewrite E in Wr. pose proof (root_same _ _ _ _ HR B Wr Wr'). lra.
    + pose proof (root_order (pixels2 roi r') (pixels2 roi r) _ _ B ltac:(lia) ltac:(lia) (N r' Hr') (N r Hr)). lra.
Qed.

(** ** [distance(h, axis)] *)
Lemma scaled_axis : forall L w asrt roi per var e h axis, freachable L asrt roi per var e -> Forall (fun n => 1 <= n <= 2 ^ 53) roi ->
  lenZ h = lenZ roi -> 0 <= axis < lenZ roi -> is_finite (dn h axis) = true -> (Rabs (B2R (dn h axis)) <= bpow radix2 900)%R ->
  exists d, fdistance_h_axis w asrt e h axis = Ok d /\ lenZ d = zprod roi /\
    forall r, pixel roi r -> nearest_double (IZR (nth (Z.to_nat axis) (offset roi r) 0%Z) * B2R (dn h axis)) (dn d r).
Proof.
  intros L w asrt roi per var e h axis HE HF HH HA FH BH. destruct (freachable_shape _ _ _ _ _ _ HE) as (k0 & k1 & k2 & HK & HS).
  destruct (fdistance_axis_ok w asrt roi k0 k1 k2 e axis HS HK HF HA) as (d & E & Ld & V). unfold fdistance_h_axis. rewrite (proj1 HS).
  replace (lenZ roi =? lenZ h) with true by lia. replace (assertb asrt true) with (Ok tt) by (destruct asrt; reflexivity). rewrite E, !bind_Ok.
  assert (G : vget h axis = Ok (dn h axis)).
  { unfold vget. replace (axis <? 0) with false by lia. unfold dn. rewrite (nth_error_nth' h dzero) by (unfold lenZ in *; lia). reflexivity. }
  rewrite G, bind_Ok. eexists. split; [reflexivity|]. split; [unfold lenZ in *; rewrite map_length; exact Ld|].
  intros r Hr. rewrite (dn_map (fun x => dtimes x (dn h axis))) by (rewrite Ld; exact Hr). destruct (V r Hr) as [F W]. rewrite <- W.
  apply product_of; [exact F|exact FH|]. rewrite W, Rabs_mult. apply Rle_trans with (bpow radix2 53 * bpow radix2 900)%R.
  - apply Rmult_le_compat; try apply Rabs_pos; [|exact BH]. rewrite <- abs_IZR, <- IZR_pow by lia. apply IZR_le.
    apply offset_small; [eapply Forall_impl; [|exact HF]; cbn; intros; lia|exact Hr|unfold lenZ in HA; lia].
  - rewrite <- bpow_plus. apply bpow_le. lia.
Qed.

(** ** [distance(h)] *)

Section Scaled.
Local Open Scope R_scope.

Lemma next_rel : forall r y, bpow radix2 (-1000) <= r <= bpow radix2 1000 -> next_to r y -> r * (1 - 2 * u) <= B2R y <= r * (1 + 2 * u).
Proof.
  intros r y [H M] [F C]. assert (VE : Valid_exp (FLT_exp (-1074) 53)) by (apply FLT_exp_valid; reflexivity). pose proof (bpow_gt_0 radix2 (-1000)) as P0. pose proof u_pos. pose proof u_small.
  assert (Bd : forall rr (V : Valid_rnd rr), Rabs (round radix2 (FLT_exp (-1074) 53) rr r - r) < 2 * u * r).
  { intros rr V. rewrite <- eps_u. replace r with (Rabs r) at 3 by (apply Rabs_pos_eq; lra). apply (relative_error_FLT radix2 (-1074) 53 eq_refl rr).
    rewrite Rabs_pos_eq by lra. apply Rle_trans with (2 := H). apply bpow_le. lia. }
  assert (D : forall rr (V : Valid_rnd rr), exists z : double, is_finite z = true /\ B2R z = round radix2 (FLT_exp (-1074) 53) rr r).
  { intros rr V. set (v := round radix2 (FLT_exp (-1074) 53) rr r). assert (G : generic_format radix2 (FLT_exp (-1074) 53) v) by (apply generic_format_round; assumption).
    pose proof (binary_normalize_correct 53 1024 precision exponent mode_NE (ZnearestE (scaled_mantissa radix2 (FLT_exp (-1074) 53) v)) (cexp radix2 (FLT_exp (-1074) 53) v) false) as N. cbv zeta in N.
    change (SpecFloat.fexp 53 1024) with (FLT_exp (-1074) 53) in N. change (round_mode mode_NE) with ZnearestE in N.
    change (F2R (Defs.Float radix2 (ZnearestE (scaled_mantissa radix2 (FLT_exp (-1074) 53) v)) (cexp radix2 (FLT_exp (-1074) 53) v))) with (rnd v) in N.
    assert (RV : rnd v = v) by (apply round_generic; [apply valid_rnd_N|exact G]). rewrite !RV in N.
    rewrite Rlt_bool_true in N.
    - destruct N as (N1 & N2 & _). eexists. split; [exact N2|exact N1].
    - specialize (Bd rr V). fold v in Bd. apply Rabs_lt_inv in Bd. assert (W : 2 * bpow radix2 1000 < bpow radix2 1024).
      { change 2 with (bpow radix2 1). rewrite <- bpow_plus. apply bpow_lt. lia. }
      apply Rabs_lt. nra. }
  destruct C as [[C1 C2]|[C1 C2]].
  - destruct (D Zfloor _) as (z & Fz & Vz). destruct (round_DN_pt radix2 (FLT_exp (-1074) 53) r) as (_ & P1 & _).
    specialize (C2 z Fz). rewrite Vz in C2. specialize (C2 P1). specialize (Bd Zfloor _). apply Rabs_lt_inv in Bd. split; nra.
  - destruct (D Zceil _) as (z & Fz & Vz). destruct (round_UP_pt radix2 (FLT_exp (-1074) 53) r) as (_ & P1 & _).
    specialize (C2 z Fz). rewrite Vz in C2. specialize (C2 P1). specialize (Bd Zceil _). apply Rabs_lt_inv in Bd. split; nra.
Qed.

(** A nonnegative number up to [k] rounding errors, at most [c] times 2^904, not too small. *)
Definition near (k c t : R) (x : double) : Prop :=
  is_finite x = true /\ (t = 0 \/ bpow radix2 (-800) <= t) /\ t <= c * bpow radix2 904 /\ t * (1 - k * u) <= B2R x <= t * (1 + k * u).

Lemma near_pos : forall k c t x, near k c t x -> 0 <= t.
Proof. intros k c t x (_ & [->|H] & _); [lra|]. pose proof (bpow_gt_0 radix2 (-800)). lra. Qed.

Lemma near_zero : near 5 0 0 dzero.
Proof. split; [reflexivity|]. split; [left; reflexivity|]. cbn [B2R dzero]. lra. Qed.

Lemma near_plus : forall k c b s t x y, 5 <= k <= 100 -> 0 <= c <= 10 -> 0 <= b <= 10 -> near k c s x -> near 5 b t y -> near (k + 2) (c + b) (s + t) (dplus x y).
Proof.
  intros k c b s t x y HK HC HB HX HY. pose proof (near_pos _ _ _ _ HX) as S0. pose proof (near_pos _ _ _ _ HY) as T0.
  destruct HX as (Fx & Sx & Bx & Vx). destruct HY as (Fy & Ty & By & Vy). pose proof u_pos as U0. pose proof u_small as U1.
  assert (KU : k * u <= / 8) by nra. assert (K5 : 5 * u <= k * u) by nra. pose proof (bpow_gt_0 radix2 904) as P.
  assert (V : (s + t) * (1 - k * u) <= B2R x + B2R y <= (s + t) * (1 + k * u)) by nra.
  assert (N0 : 0 <= B2R x + B2R y) by nra.
  destruct (sum_of x y Fx Fy) as [F E].
  { rewrite Rabs_pos_eq by lra. apply Rle_trans with (bpow radix2 6 * bpow radix2 904).
    - change (bpow radix2 6) with 64. nra.
    - rewrite <- bpow_plus. apply bpow_le. lia. }
  split; [exact F|]. split; [|split; [nra|]].
  - pose proof (bpow_gt_0 radix2 (-800)). destruct Sx as [->|Sx], Ty as [->|Ty]; [left; ring|right; lra..].
  - rewrite E. pose proof (plus_error x y) as PE. rewrite (Rabs_pos_eq (B2R x + B2R y)) in PE by lra. apply Rabs_le_inv in PE.
    set (v := B2R x + B2R y) in *. set (w := rnd v) in *. clearbody v w. set (S := s + t) in *. assert (SS : 0 <= S) by (unfold S; lra). clearbody S.
    assert (v * u <= S * (1 + k * u) * u) by nra. assert (S * (1 + k * u) * u <= S * (2 * u)).
    { rewrite Rmult_assoc. apply Rmult_le_compat_l; [exact SS|]. nra. }
    split; nra.
Qed.

Lemma bpow_sq : forall k, bpow radix2 k * bpow radix2 k = bpow radix2 (k + k).
Proof. intros k. rewrite bpow_plus. reflexivity. Qed.

Lemma near_term : forall L o x h, near_squares L -> whole o x -> (Z.abs o <= 2 ^ 52)%Z -> pixel_length h ->
  near 5 1 ((IZR o * B2R h) ^ 2) (pow2 L (dtimes x h)).
Proof.
  intros L o x h HL [Fx Vx] HO [Fh Rh]. set (p := IZR o * B2R h).
  assert (OB : Rabs (IZR o) <= bpow radix2 52) by (rewrite <- abs_IZR, <- IZR_pow by lia; apply IZR_le; lia).
  assert (PB : Rabs p <= bpow radix2 452).
  { unfold p. rewrite Rabs_mult. change 452%Z with (52 + 400)%Z. rewrite bpow_plus. apply Rmult_le_compat; try apply Rabs_pos; [exact OB|].
    destruct Rh as [->|[_ Rh]]; [rewrite Rabs_R0; apply bpow_ge_0|exact Rh]. }
  assert (PS : p = 0 \/ bpow radix2 (-400) <= Rabs p).
  { destruct Rh as [E|[Rh _]]; [left; unfold p; rewrite E; ring|]. destruct (Z.eq_dec o 0) as [->|NZ]; [left; unfold p; ring|right].
    unfold p. rewrite Rabs_mult. assert (1 <= Rabs (IZR o)) by (rewrite <- abs_IZR; apply IZR_le; lia). pose proof (bpow_gt_0 radix2 (-400)). nra. }
  destruct (product_of x h Fx Fh) as [F E]; [rewrite Vx; fold p; apply Rle_trans with (1 := PB); apply bpow_le; lia|]. rewrite Vx in E. fold p in E.
  destruct (rel p) as (d & D & ED). { destruct PS as [->|PS]; [left; reflexivity|right; apply Rle_trans with (2 := PS); apply bpow_le; lia]. }
  rewrite ED in E. clear ED. destruct v_small as (_ & VS & _). pose proof u_pos as U0. pose proof u_small as U1.
  assert (D' : Rabs d <= u) by lra. clear D VS. apply Rabs_le_inv in D'. set (z := dtimes x h) in *. clearbody z.
  assert (AZ : Rabs (B2R z) = Rabs p * (1 + d)) by (rewrite E, Rabs_mult, (Rabs_pos_eq (1 + d)) by lra; reflexivity).
  destruct (HL z F) as [Fq Q].
  { destruct PS as [PS|PS]; [left; rewrite E, PS; ring|right]. rewrite AZ. pose proof (Rabs_pos p). split.
    - apply Rle_trans with (bpow radix2 (-400) * bpow radix2 (-1)); [rewrite <- bpow_plus; apply bpow_le; lia|]. change (bpow radix2 (-1)) with (/ 2).
      apply Rmult_le_compat; try lra. apply bpow_ge_0.
    - apply Rle_trans with (bpow radix2 452 * bpow radix2 1); [|rewrite <- bpow_plus; apply bpow_le; lia]. change (bpow radix2 1) with 2.
      apply Rmult_le_compat; lra. }
  assert (P2 : p ^ 2 = Rabs p * Rabs p). { rewrite <- Rabs_mult, Rabs_pos_eq by nra. ring. }
  split; [exact Fq|]. split; [|split].
  - destruct PS as [->|PS]; [left; ring|right]. rewrite P2. change (-800)%Z with (-400 + -400)%Z. rewrite <- bpow_sq. pose proof (bpow_ge_0 radix2 (-400)). apply Rmult_le_compat; assumption.
  - rewrite P2, Rmult_1_l. change 904%Z with (452 + 452)%Z. rewrite <- bpow_sq. apply Rmult_le_compat; try apply Rabs_pos; assumption.
  - rewrite eps_u in Q. rewrite E in Q. replace ((p * (1 + d)) ^ 2) with (p ^ 2 * (1 + d) ^ 2) in Q by ring. apply Rabs_le_inv in Q.
    assert (T0 : 0 <= p ^ 2) by (rewrite P2; pose proof (Rabs_pos p); nra). set (t := p ^ 2) in *. set (y := B2R (pow2 L z)) in *. clearbody t y.
    assert (L1 : 1 - 2 * u <= (1 + d) ^ 2 <= 1 + 2 * u + u * u) by nra.
    assert (L2 : (1 + d) ^ 2 * (1 + 2 * u) <= 1 + 5 * u) by nra. assert (L3 : 1 - 5 * u <= (1 + d) ^ 2 * (1 - 2 * u)) by nra.
    split; nra.
Qed.

Lemma near_root : forall R k c t x, accurate R -> 5 <= k <= 11 -> 0 <= c <= 10 -> near k c t x ->
  is_finite (R x) = true /\ Rabs (B2R (R x) - sqrt t) <= bpow radix2 (-49) * sqrt t.
Proof.
  intros R k c t x HR HK HC HN. pose proof (near_pos _ _ _ _ HN) as T0. destruct HN as (F & S & B & V). pose proof u_pos as U0. pose proof u_small as U1.
  assert (KU : k * u <= 11 * u) by nra. assert (X0 : 0 <= B2R x) by nra. pose proof (HR x F X0) as N. split; [exact (proj1 N)|].
  assert (E49 : bpow radix2 (-49) = 16 * u). { change (-49)%Z with (4 + -53)%Z. rewrite bpow_plus. reflexivity. } rewrite E49.
  destruct S as [->|S].
  - assert (E : B2R x = 0) by lra. rewrite E, sqrt_0 in N. rewrite (next_exact 0 (R x) dzero N), sqrt_0 by reflexivity. rewrite Rminus_0_r, Rabs_R0. lra.
  - set (a := sqrt t) in *. set (r := sqrt (B2R x)) in *. assert (A0 : 0 <= a) by apply sqrt_pos. assert (R0 : 0 <= r) by apply sqrt_pos.
    assert (A2 : a * a = t) by (apply sqrt_sqrt; exact T0). assert (R2 : r * r = B2R x) by (apply sqrt_sqrt; exact X0).
    assert (AL : bpow radix2 (-400) <= a).
    { unfold a. rewrite <- (sqrt_square (bpow radix2 (-400))) by apply bpow_ge_0. apply sqrt_le_1_alt. rewrite bpow_sq. exact S. }
    assert (AU : a <= bpow radix2 460).
    { unfold a. rewrite <- (sqrt_square (bpow radix2 460)) by apply bpow_ge_0. apply sqrt_le_1_alt. rewrite bpow_sq. apply Rle_trans with (1 := B).
      apply Rle_trans with (bpow radix2 4 * bpow radix2 904); [|rewrite <- bpow_plus; apply bpow_le; lia]. apply Rmult_le_compat_r; [apply bpow_ge_0|]. change (bpow radix2 4) with 16. lra. }
    assert (RA : a * (1 - 6 * u) <= r <= a * (1 + 6 * u)).
    { assert (T1 : t * (1 - 11 * u) <= B2R x <= t * (1 + 11 * u)) by nra. rewrite <- A2, <- R2 in T1. pose proof (bpow_gt_0 radix2 (-400)).
      assert (Q0 : 0 < a * a) by (apply Rmult_lt_0_compat; lra).
      assert (Q1 : a * (1 - 6 * u) * (a * (1 - 6 * u)) <= r * r).
      { replace (a * (1 - 6 * u) * (a * (1 - 6 * u))) with (a * a * ((1 - 6 * u) * (1 - 6 * u))) by ring.
        apply Rle_trans with (2 := proj1 T1). apply Rmult_le_compat_l; [lra|]. nra. }
      assert (Q2 : r * r <= a * (1 + 6 * u) * (a * (1 + 6 * u))).
      { replace (a * (1 + 6 * u) * (a * (1 + 6 * u))) with (a * a * ((1 + 6 * u) * (1 + 6 * u))) by ring.
        apply Rle_trans with (1 := proj2 T1). apply Rmult_le_compat_l; [lra|]. nra. }
      split; [apply Rsqr_incr_0; [exact Q1|apply Rmult_le_pos; lra|exact R0]|apply Rsqr_incr_0; [exact Q2|exact R0|apply Rmult_le_pos; lra]]. }
    assert (RR : bpow radix2 (-1000) <= r <= bpow radix2 1000).
    { split.
      - apply Rle_trans with (bpow radix2 (-400) * bpow radix2 (-1)); [rewrite <- bpow_plus; apply bpow_le; lia|]. change (bpow radix2 (-1)) with (/ 2). apply Rle_trans with (a * (1 - 6 * u)); [|lra].
        apply Rmult_le_compat; try lra. apply bpow_ge_0.
      - apply Rle_trans with (bpow radix2 460 * bpow radix2 1); [|rewrite <- bpow_plus; apply bpow_le; lia]. change (bpow radix2 1) with 2. apply Rle_trans with (a * (1 + 6 * u)); [lra|].
        apply Rmult_le_compat; lra. }
    pose proof (next_rel r (R x) RR N) as W. apply Rabs_le.
    assert (W1 : (1 + 6 * u) * (1 + 2 * u) <= 1 + 16 * u) by nra. assert (W2 : 1 - 16 * u <= (1 - 6 * u) * (1 - 2 * u)) by nra.
    assert (r * (1 + 2 * u) <= a * (1 + 6 * u) * (1 + 2 * u)) by nra. assert (a * (1 - 6 * u) * (1 - 2 * u) <= r * (1 - 2 * u)) by nra.
    split; nra.
Qed.

Lemma radius_near : forall L x o h, near_squares L -> (length o <= 3)%nat -> length h = length o -> Forall pixel_length h ->
  (forall a, (0 <= a < lenZ o)%Z -> (Z.abs (nth (Z.to_nat a) o 0%Z) <= 2 ^ 52)%Z /\ whole (nth (Z.to_nat a) o 0%Z) (x a)) ->
  exists k c, 5 <= k <= 11 /\ 0 <= c <= 10 /\
    near k c (fold_right Rplus 0 (map (fun oh => (IZR (fst oh) * B2R (snd oh)) ^ 2) (combine o h)))
      (fold_left (fun acc a => dplus acc (pow2 L (dtimes (x a) (nth (Z.to_nat a) h dzero)))) (zrange 0 (lenZ o)) dzero).
Proof.
  intros L x o h HL HO HH HP HX.
  destruct o as [|a [|b [|c [|? ?]]]]; cbn [length] in HO; try lia; destruct h as [|ha [|hb [|hc [|? ?]]]]; cbn [length] in HH; try discriminate; unfold lenZ in *; cbn [length] in *;
    repeat match goal with H : Forall _ (_ :: _) |- _ => inversion H; clear H; subst end.
  - exists 5, 0. split; [lra|]. split; [lra|]. exact near_zero.
  - destruct (HX 0%Z ltac:(lia)) as [A0 A1]. cbn in A0, A1. exists (5 + 2), (0 + 1). split; [lra|]. split; [lra|].
    change (zrange 0 (Z.of_nat 1)) with [0%Z]. cbn [fold_left map combine fold_right fst snd]. cbn [Z.to_nat nth].
    match goal with |- near _ _ ?t _ => replace t with (0 + (IZR a * B2R ha) ^ 2) by ring end.
    apply near_plus; try lra; [exact near_zero|apply near_term; assumption].
  - destruct (HX 0%Z ltac:(lia)) as [A0 A1]. destruct (HX 1%Z ltac:(lia)) as [B0 B1]. cbn in A0, A1, B0, B1. exists (5 + 2 + 2), (0 + 1 + 1). split; [lra|]. split; [lra|].
    change (zrange 0 (Z.of_nat 2)) with [0%Z; 1%Z]. cbn [fold_left map combine fold_right fst snd]. change (Z.to_nat 1) with 1%nat. cbn [Z.to_nat nth].
    match goal with |- near _ _ ?t _ => replace t with (0 + (IZR a * B2R ha) ^ 2 + (IZR b * B2R hb) ^ 2) by ring end.
    apply near_plus; try lra; [apply near_plus; try lra; [exact near_zero|]|]; apply near_term; assumption.
  - destruct (HX 0%Z ltac:(lia)) as [A0 A1]. destruct (HX 1%Z ltac:(lia)) as [B0 B1]. destruct (HX 2%Z ltac:(lia)) as [C0 C1]. cbn in A0, A1, B0, B1, C0, C1. exists (5 + 2 + 2 + 2), (0 + 1 + 1 + 1). split; [lra|]. split; [lra|].
    change (zrange 0 (Z.of_nat 3)) with [0%Z; 1%Z; 2%Z]. cbn [fold_left map combine fold_right fst snd]. change (Z.to_nat 1) with 1%nat. change (Z.to_nat 2) with 2%nat. cbn [Z.to_nat nth].
    match goal with |- near _ _ ?t _ => replace t with (0 + (IZR a * B2R ha) ^ 2 + (IZR b * B2R hb) ^ 2 + (IZR c * B2R hc) ^ 2) by ring end.
    apply near_plus; try lra; [apply near_plus; try lra; [apply near_plus; try lra; [exact near_zero|]|]|]; apply near_term; assumption.
Qed.

Lemma mapM_dget : forall (h : list double) l, (forall i, In i l -> (0 <= i < lenZ h)%Z) -> exists x, mapM (vget h) l = Ok x.
Proof.
  intros h l. induction l as [|i l IH]; intros H; cbn [mapM]; [eauto|]. specialize (H i (or_introl eq_refl)) as Hi.
  unfold vget at 1. replace (i <? 0)%Z with false by lia. rewrite (nth_error_nth' h dzero) by (unfold lenZ in *; lia). rewrite bind_Ok.
  destruct IH as [x ->]; [intros; apply H; right; auto|]. rewrite bind_Ok. eauto.
Qed.

Lemma scaled_distance : forall L w asrt roi per var e h, freachable L asrt roi per var e -> near_squares L -> accurate (pow_half L) ->
  Forall (fun n => (1 <= n <= 2 ^ 53)%Z) roi -> lenZ h = lenZ roi -> Forall pixel_length h ->
  exists d, fdistance_h L w asrt e h = Ok d /\ lenZ d = zprod roi /\
    forall r, pixel roi r -> is_finite (dn d r) = true /\
      Rabs (B2R (dn d r) - sqrt (radius2 roi h r)) <= bpow radix2 (-49) * sqrt (radius2 roi h r).
Proof.
  intros L w asrt roi per var e h HE HQ HR HF HH HP. destruct (freachable_shape _ _ _ _ _ _ HE) as (k0 & k1 & k2 & HK & HS).
  destruct (fsum_ok L w asrt roi k0 k1 k2 e (fun i x => dtimes x (nth (Z.to_nat i) h dzero)) HS HK HF) as (s & Es & Ls & Vs).
  unfold fdistance_h. rewrite (proj1 HS). replace (lenZ roi =? lenZ h)%Z with true by lia. replace (assertb asrt true) with (Ok tt) by (destruct asrt; reflexivity). rewrite bind_Ok.
  destruct (mapM_dget h (zrange 0 (lenZ roi))) as [x Ex]; [intros i IN; apply zrange_In in IN; lia|]. rewrite Ex, Es, !bind_Ok. eexists. split; [reflexivity|].
  split; [unfold lenZ in *; rewrite map_length; exact Ls|]. intros r Hr. rewrite dn_map by (rewrite Ls; exact Hr).
  destruct (Vs r Hr) as (v & X & ->). replace (lenZ roi) with (lenZ (offset roi r)) in * by (unfold lenZ; rewrite offset_length; reflexivity).
  destruct (radius_near L v (offset roi r) h HQ) as (k & c & K & C & N).
  - rewrite offset_length. eapply shape3_length; exact HK.
  - unfold lenZ in HH. rewrite offset_length in *. lia.
  - exact HP.
  - intros a Ha. split; [|apply X; exact Ha]. apply offset_small; [eapply Forall_impl; [|exact HF]; cbn; intros; lia|exact Hr|].
    unfold lenZ in Ha. rewrite offset_length in Ha. lia.
  - exact (near_root _ _ _ _ _ HR K C N).
Qed.

End Scaled.

(** ** A library that meets the contracts; equal distances that differ *)

Definition rooted : libm := mklibm (pow2 plain) (pow4 plain) dsqrt (total plain).

Lemma rooted_exact : exact_squares rooted.
Proof. exact (proj1 plain_library). Qed.

Lemma rooted_near : near_squares rooted.
Proof.
  intros x F R. cbn [rooted pow2 plain]. assert (B : (Rabs (B2R x) <= bpow radix2 480)%R) by (destruct R as [-> | [_ R]]; [rewrite Rabs_R0; apply bpow_ge_0|exact R]).
  destruct (product_of x x F F) as [Fp Vp].
  { rewrite Rabs_mult. apply Rle_trans with (bpow radix2 480 * bpow radix2 480)%R; [apply Rmult_le_compat; try apply Rabs_pos; exact B|]. rewrite <- bpow_plus. apply bpow_le. lia. }
  split; [exact Fp|]. rewrite Vp. destruct (rel (B2R x * B2R x)) as (d & D & ->).
  { destruct R as [-> | [R _]]; [left; ring|right]. rewrite Rabs_mult. apply Rle_trans with (bpow radix2 (-410) * bpow radix2 (-410))%R; [rewrite <- bpow_plus; apply bpow_le; lia|].
    apply Rmult_le_compat; try apply bpow_ge_0; exact R. }
  replace (B2R x * B2R x * (1 + d) - B2R x ^ 2)%R with (d * B2R x ^ 2)%R by ring. rewrite Rabs_mult, (Rabs_pos_eq (B2R x ^ 2)) by apply pow2_ge_0.
  apply Rmult_le_compat_r; [apply pow2_ge_0|]. destruct v_small as (_ & V & _). pose proof u_pos. rewrite eps_u. lra.
Qed.

Definition pixel7 : double := ddiv (dz 7) (dz 10).

Lemma pixel7_length : pixel_length pixel7.
Proof.
  destruct (whole_dz 7 ltac:(lia)) as [F7 V7]. destruct (whole_dz 10 ltac:(lia)) as [F10 V10].
  assert (Q : (B2R (dz 7) / B2R (dz 10) = 7 / 10)%R) by (rewrite V7, V10; lra).
  assert (B : (bpow radix2 (-400) <= / 2 /\ 1 <= bpow radix2 400 /\ 1 <= bpow radix2 1000)%R).
  { repeat split; [change (/ 2)%R with (bpow radix2 (-1))|change 1%R with (bpow radix2 0)..]; apply bpow_le; lia. }
  destruct (quotient_of (dz 7) (dz 10) F7) as [F V]; [rewrite V10; lra|rewrite Q, Rabs_pos_eq by lra; lra|]. fold pixel7 in F, V. rewrite Q in V.
  split; [exact F|right]. rewrite V. destruct (rel (7 / 10)) as (d & D & ->); [right; rewrite Rabs_pos_eq by lra; apply Rle_trans with (bpow radix2 (-400)); [apply bpow_le; lia|lra]|].
  destruct v_small as (_ & VS & _). pose proof u_small. apply Rabs_le_inv in D. rewrite Rabs_pos_eq by lra. lra.
Qed.

Definition square_roi : list Z := [7; 11].

Lemma differ_at : forall (r r' : Z) o, (match o with Ok d => Bltb (dn d r) (dn d r') | _ => false end) = true -> exists d, o = Ok d /\ Bltb (dn d r) (dn d r') = true.
Proof. intros r r' [d| | |] H; try discriminate. eauto. Qed.

Lemma equal_distances_differ : exists L w asrt roi per var e h r r' d, freachable L asrt roi per var e /\ exact_squares L /\ near_squares L /\ accurate (pow_half L) /\
  Forall pixel_length h /\ pixel roi r /\ pixel roi r' /\ fdistance_h L w asrt e h = Ok d /\ radius2 roi h r = radius2 roi h r' /\ (B2R (dn d r) < B2R (dn d r'))%R.
Proof.
  destruct (fensemble true square_roi true true) as [e| | |] eqn:E; try discriminate.
  assert (D : exists d, fdistance_h rooted Multiplied true e [pixel7; pixel7] = Ok d /\ Bltb (dn d 75) (dn d 43) = true).
  { apply differ_at. apply (f_equal (fun o => match o with Ok e => match fdistance_h rooted Multiplied true e [pixel7; pixel7] with Ok d => Bltb (dn d 75) (dn d 43) | _ => false end | _ => true end)) in E.
    rewrite <- E. vm_compute. reflexivity. }
  destruct D as (d & ED & LT). exists rooted, Multiplied, true, square_roi, true, true, e, [pixel7; pixel7], 75, 43, d.
  assert (HE : freachable rooted true square_roi true true e) by (exists e, []; split; [exact E|reflexivity]).
  split; [exact HE|]. split; [exact rooted_exact|]. split; [exact rooted_near|]. split; [exact dsqrt_accurate|].
  assert (HP : Forall pixel_length [pixel7; pixel7]) by (constructor; [exact pixel7_length|constructor; [exact pixel7_length|constructor]]).
  assert (P1 : pixel square_roi 75) by (unfold pixel; cbn; lia). assert (P2 : pixel square_roi 43) by (unfold pixel; cbn; lia).
  split; [exact HP|]. split; [exact P1|]. split; [exact P2|]. split; [exact ED|]. split.
  - unfold radius2. change (offset square_roi 75) with [3; 4]. change (offset square_roi 43) with [0; 5]. cbn [combine map fold_right fst snd]. ring.
  - destruct (scaled_distance rooted Multiplied true square_roi true true e [pixel7; pixel7] HE rooted_near dsqrt_accurate) as (d' & ED' & _ & V).
    + repeat constructor; lia.
    + reflexivity.
    + exact HP.
    + rewrite ED in ED'. inversion ED'; subst d'. destruct (V 75 P1) as [F1 _]. destruct (V 43 P2) as [F2 _].
      rewrite Bltb_correct in LT by assumption. revert LT. case Rlt_bool_spec; [auto|discriminate].
Qed.

(** Wrong arguments throw. *)
Lemma distances_throw : forall L w roi per var e h axis, freachable L true roi per var e ->
  (lenZ roi <= axis -> fdistance_axis w true e axis = Throw) /\ (lenZ h <> lenZ roi -> fdistance_h L w true e h = Throw /\ fdistance_h_axis w true e h axis = Throw).
Proof.
  intros L w roi per var e h axis HE. destruct (freachable_shape _ _ _ _ _ _ HE) as (k0 & k1 & k2 & HK & HS).
  unfold fdistance_axis, fdistance_h, fdistance_h_axis. rewrite (proj1 HS). split.
  - intros H. replace (axis <? lenZ roi) with false by lia. reflexivity.
  - intros H. replace (lenZ roi =? lenZ h) with false by lia. split; reflexivity.
Qed.
