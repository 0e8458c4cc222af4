(** * CirclesFloatTop: random circles in [double]s (proofs only) *)

From Coq Require Import ZArith QArith Qreals Reals List Bool Lia Lra Psatz.
From Flocq Require Import Core BinarySingleNaN.
From Verif Require Import Base BaseLemmas SpecCluster Path Circles SpecCircles CirclesProofs Double SpecDouble DoubleProofs DoubleError
  PathFloat PathFloatProofs CirclesFloat SpecCirclesFloat CirclesFloatProofs CirclesFloatGrid.
Import ListNotations.
Open Scope R_scope.

Local Notation rnd := (round radix2 (FLT_exp (-1074) 53) ZnearestE).
Local Notation E := (/ 4503599627370496).

Lemma threetenths_close : close E (3 / 10) (B2R lit_threetenths).
Proof.
  destruct threetenths_value as [_ V]. rewrite V, p2n by lia. change (2 ^ (- (-54)))%Z with 18014398509481984%Z. split; lra.
Qed.

Lemma pi_bounds : 3.14 <= PI <= 3.15.
Proof.
  pose proof pi_close as C. rewrite E_bpow in C. destruct pi_value as [_ V]. rewrite V, p2n in C by lia. change (2 ^ (- (-51)))%Z with 2251799813685248%Z in C.
  apply Rabs_le_inv in C. lra.
Qed.

Lemma pi_relative : close E PI (B2R lit_pi).
Proof. pose proof pi_close as C. rewrite E_bpow in C. apply Rabs_le_inv in C. pose proof pi_bounds. split; nra. Qed.

Lemma div_ge : forall a b c, 0 < b -> c * b <= a -> c <= a / b.
Proof. intros a b c B H. apply Rmult_le_reg_r with b; [exact B|]. replace (a / b * b) with a by (field; lra). exact H. Qed.
Lemma div_le : forall a b c, 0 < b -> a <= c * b -> a / b <= c.
Proof. intros a b c B H. apply Rmult_le_reg_r with b; [exact B|]. replace (a / b * b) with a by (field; lra). exact H. Qed.

Lemma counts_bound : forall n, (20 <= n)%Z -> (1 <= n / 20 /\ 20 * (n / 20) <= n < 40 * (n / 20))%Z.
Proof. intros n H. pose proof (Z.div_mod n 20 ltac:(lia)). pose proof (Z.mod_pos_bound n 20 ltac:(lia)). assert (1 <= n / 20)%Z by (apply Z.div_le_lower_bound; lia). lia. Qed.

Lemma ideal_bounds : forall n m, (20 <= n)%Z -> (20 <= m)%Z -> 6 <= ideal_radius n m <= 13.
Proof.
  intros n m N M. destruct (counts_bound n N) as (A1 & A2 & A3). destruct (counts_bound m M) as (B1 & B2 & B3). pose proof pi_bounds as P.
  set (K := (n / 20 * (m / 20))%Z). assert (K1 : (1 <= K)%Z) by (unfold K; nia).
  assert (Q1 : (400 * K <= n * m)%Z) by (unfold K; nia). assert (Q2 : (n * m <= 1600 * K)%Z) by (unfold K; nia).
  apply IZR_le in Q1, Q2, K1. rewrite (mult_IZR 400) in Q1. rewrite (mult_IZR 1600) in Q2. unfold ideal_radius. fold K.
  assert (D1 : 3.14 * IZR K <= PI * IZR K <= 3.15 * IZR K) by nra.
  assert (D : 0 < PI * IZR K) by lra.
  assert (L : 36 <= 3 / 10 * IZR (n * m) / (PI * IZR K)). { apply div_ge; [exact D|lra]. }
  assert (U : 3 / 10 * IZR (n * m) / (PI * IZR K) <= 169). { apply div_le; [exact D|lra]. }
  split.
  - rewrite <- (sqrt_square 6) by lra. apply sqrt_le_1_alt. lra.
  - rewrite <- (sqrt_square 13) by lra. apply sqrt_le_1_alt. lra.
Qed.

Lemma radius_close : forall root n m, accurate root -> (20 <= n <= 2 ^ 28)%Z -> (20 <= m <= 2 ^ 28)%Z -> (n * m <= 2 ^ 53)%Z ->
  exists y, close (16 * E) (ideal_radius n m) y /\ 0 <= y /\ forall z, (z <= fdefault_radius root n m)%Z <-> IZR z <= y.
Proof.
  intros root n m A N M P. unfold fdefault_radius. rewrite !ftwentieth_exact by lia.
  pose proof (ideal_bounds n m ltac:(lia) ltac:(lia)) as IB.
  destruct (counts_bound n ltac:(lia)) as (A1 & A2 & A3). destruct (counts_bound m ltac:(lia)) as (B1 & B2 & B3). pose proof pi_bounds as PB.
  unfold ideal_radius in *. set (K := (n / 20 * (m / 20))%Z) in *. assert (K1 : (1 <= K)%Z) by (unfold K; nia). assert (K2 : (K <= n * m)%Z) by (unfold K; nia).
  set (Pz := (n * m)%Z) in *. assert (P1 : (400 <= Pz)%Z) by (unfold Pz; nia). clearbody Pz K.
  destruct (dz_value Pz ltac:(lia)) as [FP VP]. destruct (dz_value K ltac:(lia)) as [FK VK].
  apply IZR_le in P1 as P1', P as P', K1 as K1', K2 as K2'. change (2 ^ 53)%Z with 9007199254740992%Z in P'.
  destruct threetenths_value as [F3 _]. destruct pi_value as [Fpi _]. pose proof threetenths_close as C3. pose proof pi_relative as Cpi.
  assert (Big : forall r, 0 <= r <= 1000000000000000000 -> Rabs r <= bpow radix2 1000).
  { intros r R. rewrite Rabs_pos_eq by lra. apply Rle_trans with (bpow radix2 60); [|apply bpow_le; lia]. rewrite p2 by lia. change (2 ^ 60)%Z with 1152921504606846976%Z. lra. }
  (* numerator *)
  assert (R3 : 1 / 4 <= B2R lit_threetenths <= 1 / 3) by (destruct C3; lra).
  destruct (product_of lit_threetenths (dz Pz) F3 FP) as [Fa Va]; [apply Big; rewrite VP; nra|].
  set (a := dtimes lit_threetenths (dz Pz)) in *. rewrite VP in Va.
  assert (Ca : close (3 * E) (3 / 10 * IZR Pz) (B2R a)).
  { rewrite Va. apply close_weaken with (E + E + E * E); [lra|lra|].
    apply close_trans with (B2R lit_threetenths * IZR Pz); try lra.
    - rewrite !(Rmult_comm _ (IZR Pz)). apply close_scale; [lra|exact C3].
    - apply close_rnd. nra. }
  (* denominator *)
  assert (Rpi : 3 <= B2R lit_pi <= 4) by (destruct Cpi; lra).
  destruct (product_of lit_pi (dz K) Fpi FK) as [Fb Vb]; [apply Big; rewrite VK; nra|].
  set (b := dtimes lit_pi (dz K)) in *. rewrite VK in Vb.
  assert (Cb : close (3 * E) (PI * IZR K) (B2R b)).
  { rewrite Vb. apply close_weaken with (E + E + E * E); [nra|lra|].
    apply close_trans with (B2R lit_pi * IZR K); try nra.
    - rewrite !(Rmult_comm _ (IZR K)). apply close_scale; [lra|exact Cpi].
    - apply close_rnd. nra. }
  assert (D0 : 0 < PI * IZR K) by nra.
  (* quotient *)
  set (T := 3 / 10 * IZR Pz / (PI * IZR K)) in *.
  assert (T36 : 36 <= T <= 169).
  { assert (S0 : 0 <= T). { unfold T. apply Rmult_le_pos; [lra|]. left. apply Rinv_0_lt_compat. exact D0. }
    pose proof (sqrt_sqrt T S0). nra. }
  assert (B0 : 0 < B2R b) by (destruct Cb; nra).
  assert (Cq : close (10 * E) T (B2R a / B2R b)).
  { apply close_weaken with (3 * E + 2 * (3 * E) + 3 * E * (2 * (3 * E))); [lra|lra|]. unfold T, Rdiv at 1 3.
    apply close_trans with (B2R a * / (PI * IZR K)); try lra.
    - apply Rmult_le_pos; [lra|left; apply Rinv_0_lt_compat; exact D0].
    - rewrite !(Rmult_comm _ (/ (PI * IZR K))). apply close_scale; [left; apply Rinv_0_lt_compat; exact D0|exact Ca].
    - apply close_scale; [destruct Ca; nra|]. apply close_inv; [exact D0|lra|exact Cb]. }
  destruct (quotient_of a b Fa) as [Fq Vq]; [lra|apply Big; destruct Cq; lra|].
  set (q := ddiv a b) in *.
  assert (Cq2 : close (12 * E) T (B2R q)).
  { apply close_weaken with (10 * E + E + 10 * E * E); [lra|lra|]. rewrite Vq. apply close_trans with (B2R a / B2R b); try lra; [exact Cq|].
    apply close_rnd. destruct Cq; lra. }
  assert (Q0 : 30 <= B2R q <= 200) by (destruct Cq2; lra).
  pose proof (A q Fq ltac:(lra)) as NX. pose proof (close_sqrt (12 * E) T (B2R q) ltac:(lra) ltac:(lra) Cq2) as Cs.
  assert (S : 5 <= sqrt (B2R q) <= 20) by (destruct Cs; lra).
  pose proof (finite_next (sqrt (B2R q)) (root q) ltac:(lra) NX ltac:(lra)) as Cr.
  assert (Cy : close (16 * E) (sqrt T) (B2R (root q))).
  { apply close_weaken with (12 * E + E + 12 * E * E); [apply sqrt_pos|lra|]. apply close_trans with (sqrt (B2R q)); try lra; try assumption. }
  assert (Y0 : 0 <= B2R (root q)) by (destruct Cy; lra).
  exists (B2R (root q)). split; [exact Cy|]. split; [exact Y0|].
  intros z. destruct NX as [Fr _]. apply dint_spec; assumption.
Qed.

Open Scope Z_scope.

(** ** The grid *)

Lemma fgrid_row_exact : forall n m k w, 20 <= n <= 2 ^ 28 -> 20 <= m <= 2 ^ 28 -> 0 <= k < n / 20 * (m / 20) ->
  fgrid_row n m k w = grid_row n m k (exact_draw w) /\ fgrid_col n m k w = grid_col n m k (exact_draw w).
Proof.
  intros n m k w N M K. unfold fgrid_row, fgrid_col, grid_row, grid_col, twentieth. rewrite !ftwentieth_exact by lia.
  destruct (counts_bound n ltac:(lia)) as (A1 & A2 & A3). destruct (counts_bound m ltac:(lia)) as (B1 & B2 & B3).
  pose proof (Z.mod_pos_bound k (m / 20) ltac:(lia)) as MB.
  assert (D1 : 0 <= k / (m / 20)) by (apply Z.div_pos; lia).
  assert (D2 : k / (m / 20) < n / 20) by (apply Z.div_lt_upper_bound; nia).
  assert (Q1 : k / (m / 20) * n < 2 ^ 53) by nia. assert (Q2 : k mod (m / 20) * m < 2 ^ 53) by nia.
  rewrite !fgrid_exact by lia. rewrite !fpitch_exact by lia. split; reflexivity.
Qed.

Lemma scaled_bound : forall R u, 0 <= R <= 2 ^ 20 -> is_finite u = true -> (0 <= B2R u < 1)%R -> 0 <= fscaled_radius R u <= 2 * R.
Proof.
  intros R u HR F U. unfold fscaled_radius. 
  pose proof (exactly_times _ _ _ _ _ _ (exactly_dz R ltac:(lia)) (exactly_dz 2 ltac:(lia)) ltac:(lia)) as T. apply exactly_value in T.
  destruct T as [T1 T2]. rewrite zq_times, Q2R_zq in T2.
  assert (R0 : (0 <= IZR (R * 2) <= IZR (2 ^ 21))%R) by (split; apply IZR_le; lia).
  destruct (product_of (dtimes (dz R) (dz 2)) u T1 F) as [G V].
  { rewrite T2, Rabs_pos_eq by nra. apply Rle_trans with (IZR (2 ^ 21)); [nra|]. rewrite <- p2 by lia. apply bpow_le. lia. }
  rewrite T2 in V. assert (X0 : (0 <= B2R (dtimes (dtimes (dz R) (dz 2)) u))%R).
  { rewrite V. apply (rnd_ge_int 0); [lia|]. nra. }
  assert (X1 : (B2R (dtimes (dtimes (dz R) (dz 2)) u) <= IZR (R * 2))%R).
  { rewrite V. apply round_le_generic; [apply FLT_exp_valid; reflexivity|apply valid_rnd_N|apply (int_format (R * 2)); lia|nra]. }
  split.
  - apply dint_spec; [exact G|exact X0|exact X0].
  - assert (~ R * 2 + 1 <= dint (dtimes (dtimes (dz R) (dz 2)) u)); [|lia]. rewrite dint_spec by assumption. rewrite plus_IZR. lra.
Qed.

Lemma scaled_exact : forall R u k, 0 <= R <= 2 ^ 19 -> is_finite u = true -> (0 <= B2R u < 1)%R -> B2R u = (IZR k / IZR (2 ^ 32))%R ->
  fscaled_radius R u = scaled_radius R (B2R u).
Proof.
  intros R u k HR F U K. unfold fscaled_radius, scaled_radius.
  pose proof (exactly_times _ _ _ _ _ _ (exactly_dz R ltac:(lia)) (exactly_dz 2 ltac:(lia)) ltac:(lia)) as T. apply exactly_value in T.
  destruct T as [T1 T2]. rewrite zq_times, Q2R_zq in T2.
  assert (R0 : (0 <= IZR (R * 2) <= IZR (2 ^ 21))%R) by (split; apply IZR_le; lia).
  destruct (product_of (dtimes (dz R) (dz 2)) u T1 F) as [G V].
  { rewrite T2, Rabs_pos_eq by nra. apply Rle_trans with (IZR (2 ^ 21)); [nra|]. rewrite <- p2 by lia. apply bpow_le. lia. }
  rewrite T2 in V. 
  assert (P32 : (0 < IZR (2 ^ 32))%R) by (apply IZR_lt; lia).
  assert (KB : 0 <= k < 2 ^ 32).
  { rewrite K in U. destruct U as [U1 U2]. split.
    - apply le_IZR. apply Rmult_le_reg_r with (/ IZR (2 ^ 32))%R; [apply Rinv_0_lt_compat; exact P32|]. rewrite Rmult_0_l. exact U1.
    - apply lt_IZR. apply Rmult_lt_reg_r with (/ IZR (2 ^ 32))%R; [apply Rinv_0_lt_compat; exact P32|]. rewrite Rinv_r by lra. exact U2. }
  assert (EX : rnd (IZR (R * 2) * B2R u) = (IZR (R * 2) * B2R u)%R).
  { apply round_generic; [apply valid_rnd_N|]. apply generic_format_FLT. exists (Float radix2 (R * 2 * k) (-32)).
    - unfold F2R. cbn [Fnum Fexp]. rewrite p2n by lia. change (- (-32)) with 32. rewrite K, (mult_IZR (R * 2)). field. lra.
    - cbn [Fnum]. change (radix2 ^ 53) with (2 ^ 53). nia.
    - cbn [Fexp]. lia. }
  rewrite EX, mult_IZR in V. set (x := (IZR R * 2 * B2R u)%R) in *.
  assert (X0 : (0 <= x)%R). { unfold x. rewrite <- mult_IZR. nra. }
  destruct (base_Int_part x) as [I1 I2].
  assert (L : Int_part x <= dint (dtimes (dtimes (dz R) (dz 2)) u)) by (apply dint_spec; [exact G|rewrite V; exact X0|rewrite V; exact I1]).
  assert (H : ~ Int_part x + 1 <= dint (dtimes (dtimes (dz R) (dz 2)) u)); [|lia].
  rewrite dint_spec by (try exact G; rewrite V; exact X0). rewrite V, plus_IZR. lra.
Qed.

Lemma radius_range : forall root n m, accurate root -> 20 <= n <= 2 ^ 28 -> 20 <= m <= 2 ^ 28 -> n * m <= 2 ^ 53 ->
  0 <= fdefault_radius root n m <= 13.
Proof.
  intros root n m A N M P. destruct (radius_close root n m A N M P) as (y & [C1 C2] & Y & Z). pose proof (ideal_bounds n m ltac:(lia) ltac:(lia)) as B.
  split; [apply Z; exact Y|]. assert (~ 14 <= fdefault_radius root n m); [|lia]. rewrite Z. lra.
Qed.

Lemma radius_agrees : forall root n m, accurate root -> 20 <= n <= 2 ^ 28 -> 20 <= m <= 2 ^ 28 -> n * m <= 2 ^ 53 ->
  ~ almost_integer (ideal_radius n m) -> fdefault_radius root n m = default_radius n m.
Proof.
  intros root n m A N M P H. destruct (radius_close root n m A N M P) as (y & [C1 C2] & Y & Z).
  pose proof (ideal_bounds n m ltac:(lia) ltac:(lia)) as B. unfold default_radius. unfold twentieth. fold (ideal_radius n m).
  set (x := ideal_radius n m) in *. destruct (base_Int_part x) as [I1 I2]. set (j := Int_part x) in *.
  assert (F : (/ IZR (2 ^ 48) = 16 * / 4503599627370496)%R) by (change (2 ^ 48) with 281474976710656; lra).
  assert (G1 : (IZR j < x - x * / IZR (2 ^ 48))%R).
  { apply Rnot_le_lt. intros K. apply H. exists j. apply Rabs_le. rewrite F in *. lra. }
  assert (G2 : (x + x * / IZR (2 ^ 48) < IZR (j + 1))%R).
  { apply Rnot_le_lt. intros K. apply H. exists (j + 1). rewrite plus_IZR in *. apply Rabs_le. rewrite F in *. lra. }
  rewrite F in G1, G2.
  assert (j <= fdefault_radius root n m) by (apply Z; lra).
  assert (~ j + 1 <= fdefault_radius root n m) by (rewrite Z; lra). lia.
Qed.

(** ** Images *)

Lemma mapM_exact : forall (draws : list fdraw) ks, mapM (vget (map exact_draw draws)) ks =
  match mapM (vget draws) ks with Ok ws => Ok (map exact_draw ws) | Throw => Throw | UB => UB | NoFuel => NoFuel end.
Proof.
  intros draws ks. induction ks as [|k ks IH]; [reflexivity|]. cbn [mapM]. unfold vget at 1 3. destruct (k <? 0); [reflexivity|].
  rewrite nth_error_map. destruct (nth_error draws (Z.to_nat k)); cbn [option_map bind]; [|reflexivity].
  rewrite IH. destruct (mapM (vget draws) ks); reflexivity.
Qed.

Lemma mapM_in : forall (draws : list fdraw) ks ws, mapM (vget draws) ks = Ok ws -> forall w, In w ws -> In w draws.
Proof.
  intros draws ks. induction ks as [|k ks IH]; intros ws H w I; cbn [mapM] in H.
  - inversion H; subst. destruct I.
  - unfold vget at 1 in H. destruct (k <? 0); [discriminate|]. destruct (nth_error draws (Z.to_nat k)) eqn:E; cbn [bind] in H; [|discriminate].
    destruct (mapM (vget draws) ks) as [l| | |] eqn:E2; cbn [bind] in H; try discriminate. inversion H; subst.
    destruct I as [I|I]; [subst; eapply nth_error_In; exact E|eapply IH; eauto].
Qed.

Lemma combine_exact : forall (B : Type) (f : Z * fdraw -> B) (g : Z * draw -> B) ks ws,
  (forall k w, In k ks -> In w ws -> f (k, w) = g (k, exact_draw w)) -> map f (combine ks ws) = map g (combine ks (map exact_draw ws)).
Proof.
  intros B f g ks. induction ks as [|k ks IH]; intros ws H; [reflexivity|]. destruct ws as [|w ws]; [reflexivity|]. cbn [combine map]. f_equal.
  - apply H; left; reflexivity.
  - apply IH. intros k' w' K W. apply H; right; assumption.
Qed.

Lemma random_same : forall root asrt n m per draws, accurate root -> 20 <= n <= 2 ^ 28 -> 20 <= m <= 2 ^ 28 -> n * m <= 2 ^ 53 ->
  Forall (valid_fdraw n m) draws -> Forall of_32_bits draws -> ~ almost_integer (ideal_radius n m) ->
  fdummy_circles_random root asrt [n; m] per draws = dummy_circles_random asrt [n; m] per (map exact_draw draws).
Proof.
  intros root asrt n m per draws A N M P V O H. unfold fdummy_circles_random, dummy_circles_random, twentieth.
  destruct (assertb asrt (lenZ [n; m] =? 2)); cbn [bind]; try reflexivity.
  rewrite !ftwentieth_exact by lia. destruct ((n / 20 =? 0) || (m / 20 =? 0)); [reflexivity|].
  rewrite mapM_exact. destruct (mapM (vget draws) (zrange 0 (n / 20 * (m / 20)))) as [ws| | |] eqn:E; cbn [bind]; try reflexivity.
  pose proof (mapM_in _ _ _ E) as I. rewrite Forall_forall in V, O.
  pose proof (radius_range root n m A N M P) as RR. rewrite (radius_agrees root n m A N M P H) in *.
  rewrite fdummy_exact.
  - f_equal; apply combine_exact; intros k w K W; cbn [fst snd]; apply zrange_In in K.
    + apply fgrid_row_exact; assumption.
    + apply fgrid_row_exact; assumption.
    + destruct (V w (I w W)) as (_ & _ & V1 & V2). destruct (O w (I w W)) as [k' K']. cbn [w_rad exact_draw].
      apply scaled_exact with k'; try assumption; lia.
  - exact A.
  - intros x X. apply in_map_iff in X. destruct X as ((k & w) & X1 & X2). apply in_combine_r in X2. cbn [snd] in X1. subst x.
    destruct (V w (I w X2)) as (_ & _ & V1 & V2). pose proof (scaled_bound (default_radius n m) (fw_rad w) ltac:(lia) V1 V2). lia.
Qed.

Lemma fmapM_vget : forall (l : list fdraw) N, (N <= length l)%nat -> mapM (vget l) (zseq 0 N) = Ok (firstn N l).
Proof.
  intros l N H. pose proof (mapM_exact l (zseq 0 N)) as E.
  pose proof (mapM_vget (mkdraw 0 0 0) (map exact_draw l) 0 N) as G. rewrite map_length in G. specialize (G ltac:(lia)).
  assert (W : forall (l2 : list fdraw) i, (i + N <= length l2)%nat -> mapM (vget l2) (zseq (Z.of_nat i) N) = Ok (firstn N (skipn i l2))).
  { clear. induction N as [|N IH]; intros l i H; [reflexivity|]. cbn [zseq mapM]. unfold vget at 1. replace (Z.of_nat i <? 0) with false by lia.
    rewrite Nat2Z.id. destruct (nth_error l i) as [w|] eqn:E; [|apply nth_error_None in E; lia]. cbn [bind].
    replace (Z.of_nat i + 1) with (Z.of_nat (S i)) by lia. rewrite IH by lia. cbn [bind].
    assert (S : skipn i l = w :: skipn (S i) l).
    { clear - E. revert i E. induction l as [|x l IHl]; intros [|i] E; try discriminate; cbn in *; [inversion E; reflexivity|]. apply IHl. exact E. }
    rewrite S. reflexivity. }
  apply (W l 0%nat). lia.
Qed.

Lemma nth_combine : forall (B : Type) (f : Z * fdraw -> B) N ws j d dw, length ws = N -> (j < N)%nat ->
  nth j (map f (combine (zseq 0 N) ws)) d = f (Z.of_nat j, nth j ws dw).
Proof.
  intros B f N ws j d dw L J.
  assert (G : forall N a ws j, length ws = N -> (j < N)%nat -> nth j (map f (combine (zseq a N) ws)) d = f (a + Z.of_nat j, nth j ws dw)).
  { clear. induction N as [|N IH]; intros a ws j L J; [lia|]. destruct ws as [|w ws]; [discriminate|]. cbn [zseq combine map].
    destruct j as [|j]; [cbn [nth]; f_equal; f_equal; lia|]. cbn [nth]. rewrite IH by (cbn in L; lia). f_equal. f_equal. lia. }
  rewrite (G N 0 ws j L J). reflexivity.
Qed.

Lemma random_in_doubles : forall root asrt n m per draws, accurate root -> 20 <= n <= 2 ^ 28 -> 20 <= m <= 2 ^ 28 -> n * m <= 2 ^ 53 ->
  n / 20 * (m / 20) <= lenZ draws -> Forall (valid_fdraw n m) draws ->
  exists out row col r radius, fdummy_circles_random root asrt [n; m] per draws = Ok out /\
    dummy_circles asrt [n; m] row col r per = Ok out /\ on_grid n m row col /\ lenZ r = lenZ row /\
    (forall k, 0 <= k < lenZ r -> 0 <= zn r k <= 2 * radius) /\
    (ideal_radius n m * (1 - / IZR (2 ^ 48)) - 1 < IZR radius <= ideal_radius n m * (1 + / IZR (2 ^ 48)))%R.
Proof.
  intros root asrt n m per draws A N M P HD HV. unfold fdummy_circles_random. change (lenZ [n; m] =? 2) with true.
  replace (assertb asrt true) with (Ok tt) by (destruct asrt; reflexivity). cbn [bind]. rewrite !ftwentieth_exact by lia.
  destruct (counts_bound n ltac:(lia)) as (A1 & A2 & A3). destruct (counts_bound m ltac:(lia)) as (B1 & B2 & B3).
  replace (_ || _) with false by lia.
  assert (P0 : 0 < n / 20 * (m / 20)) by nia. unfold lenZ in HD. unfold zrange. rewrite Z.sub_0_r.
  set (C := Z.to_nat (n / 20 * (m / 20))) in *. assert (EN : Z.of_nat C = n / 20 * (m / 20)) by (unfold C; lia).
  rewrite fmapM_vget by lia. cbn [bind]. set (ws := firstn C draws) in *.
  assert (LW : length ws = C) by (unfold ws; rewrite firstn_length; lia).
  assert (VW : forall k, (k < C)%nat -> valid_fdraw n m (nth k ws (mkfdraw 0 0 dzero))).
  { intros k Hk. rewrite Forall_forall in HV. apply HV.
    assert (I : In (nth k ws (mkfdraw 0 0 dzero)) ws) by (apply nth_In; lia).
    rewrite <- (firstn_skipn C). apply in_or_app. left. exact I. }
  match goal with |- context [fdummy_circles _ _ _ ?a ?b ?c _] => set (row := a); set (col := b); set (r := c) end.
  assert (LC : forall {B} (f : Z * fdraw -> B), length (map f (combine (zseq 0 C) ws)) = C).
  { intros. rewrite map_length, combine_length, zseq_length. lia. }
  pose proof (radius_range root n m A N M P) as RR. set (R := fdefault_radius root n m) in *.
  assert (RK : forall k, 0 <= k < lenZ r -> 0 <= zn r k <= 2 * R).
  { intros k Hk. unfold r, lenZ in Hk. rewrite LC in Hk. unfold zn, r. rewrite (nth_combine _ _ C ws _ 0 (mkfdraw 0 0 dzero)) by lia. cbn [snd].
    destruct (VW (Z.to_nat k) ltac:(lia)) as (_ & _ & V1 & V2). apply scaled_bound; [lia|exact V1|exact V2]. }
  destruct (circles_ok asrt n m row col r per) as (out & EO & _); try lia.
  { unfold row, col, lenZ. now rewrite !LC. } { unfold row, r, lenZ. now rewrite !LC. }
  exists out, row, col, r, R. split; [|split; [exact EO|]].
  { rewrite fdummy_exact; [exact EO|exact A|]. intros x X. destruct (In_nth _ _ 0 X) as (j & J1 & J2).
    specialize (RK (Z.of_nat j)). unfold lenZ, zn in RK. rewrite Nat2Z.id, J2 in RK. lia. }
  split; [|split; [unfold row, r, lenZ; now rewrite !LC|split; [exact RK|]]].
  - split; [unfold row, lenZ; rewrite LC; exact EN|]. split; [unfold col, lenZ; rewrite LC; exact EN|].
    intros i j Hi Hj. assert (K : 0 <= i * (m / 20) + j < n / 20 * (m / 20)) by nia.
    assert (K' : (Z.to_nat (i * (m / 20) + j) < C)%nat) by lia.
    destruct (VW _ K') as (V1 & V2 & _). destruct (split_index i j (m / 20) Hj) as [D1 D2].
    unfold zn, row, col. rewrite !(nth_combine _ _ C ws _ 0 (mkfdraw 0 0 dzero)) by lia. cbn [fst snd]. rewrite Z2Nat.id by lia.
    destruct (fgrid_row_exact n m (i * (m / 20) + j) (nth (Z.to_nat (i * (m / 20) + j)) ws (mkfdraw 0 0 dzero)) N M K) as [G1 G2].
    rewrite G1, G2. unfold grid_row, grid_col, twentieth. rewrite D1, D2. unfold about. cbn [w_row w_col exact_draw]. lia.
  - destruct (radius_close root n m A N M P) as (y & [C1 C2] & Y & Z). fold R in Z.
    assert (F : (/ IZR (2 ^ 48) = 16 * / 4503599627370496)%R) by (change (2 ^ 48) with 281474976710656; lra). rewrite F.
    assert (Z1 : (IZR R <= y)%R) by (apply Z; lia). assert (Z2 : ~ (IZR (R + 1) <= y)%R) by (rewrite <- Z; lia).
    rewrite plus_IZR in Z2. lra.
Qed.

Lemma ideal_400 : ~ almost_integer (ideal_radius 20 40).
Proof.
  unfold ideal_radius. change (20 * 40) with 800. change (20 / 20 * (40 / 20)) with 2. pose proof pi_bounds as P.
  assert (B : (36.5 <= 3 / 10 * 800 / (PI * 2) <= 38.5)%R) by (split; [apply div_ge; lra|apply div_le; lra]).
  set (t := (3 / 10 * 800 / (PI * 2))%R) in *. pose proof (sqrt_sqrt t ltac:(lra)) as S. pose proof (sqrt_pos t) as S0.
  assert (L : (6.03 <= sqrt t <= 6.3)%R) by nra. intros [j J]. apply Rabs_le_inv in J.
  assert (F : (/ IZR (2 ^ 48) <= / 1000000000000)%R) by (change (2 ^ 48) with 281474976710656; lra).
  assert (0 < / IZR (2 ^ 48))%R by (apply Rinv_0_lt_compat; apply IZR_lt; lia).
  assert (J2 : (6 < IZR j < 7)%R) by nra. destruct J2 as [J3 J4]. apply lt_IZR in J3. apply lt_IZR in J4. lia.
Qed.
