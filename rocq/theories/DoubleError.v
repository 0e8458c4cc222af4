(** * DoubleError: rounding errors of sums, products, differences and quotients *)

From Coq Require Import ZArith QArith Qcanon Qreals Reals List Bool Lia Lra Psatz Permutation.
From Flocq Require Import Core Relative Plus_error BinarySingleNaN.
From Verif Require Import Base Ensemble Double SpecDouble DoubleProofs EnsembleFloat EnsembleFloatProofs EnsembleFloatMean.
Import ListNotations.
Open Scope R_scope.

Local Notation rnd := (round radix2 (FLT_exp (-1074) 53) ZnearestE).
Local Notation u := (bpow radix2 (-53)).
Local Notation eps := (bpow radix2 (-52)).

Lemma eps_u : eps = 2 * u.
Proof. replace (-52)%Z with (1 + -53)%Z by lia. rewrite bpow_plus. reflexivity. Qed.
Lemma u_pos : 0 < u.
Proof. apply bpow_gt_0. Qed.
Lemma u_small : u <= / 1024.
Proof. change (/ 1024) with (bpow radix2 (-10)). apply bpow_le. lia. Qed.

Lemma half_u : / 2 * bpow radix2 (- (53) + 1) = u.
Proof. change (- (53) + 1)%Z with (-52)%Z. rewrite eps_u. lra. Qed.

(** Any rounding. *)
Lemma rnd_error : forall r, Rabs (rnd r - r) <= u * Rabs r + bpow radix2 (-1075).
Proof.
  intros r. destruct (Rle_or_lt (bpow radix2 (-1074 + 53 - 1)) (Rabs r)) as [H|H].
  - pose proof (relative_error_N_FLT radix2 (-1074) 53 eq_refl (fun z => negb (Z.even z)) r H) as E. rewrite half_u in E.
    pose proof (bpow_gt_0 radix2 (-1075)). change ZnearestE with (Znearest (fun z => negb (Z.even z))). lra.
  - assert (E : Rabs (rnd r - r) <= / 2 * bpow radix2 (-1074)).
    { assert (V : Valid_exp (FLT_exp (-1074) 53)) by (apply FLT_exp_valid; reflexivity).
      pose proof (error_le_half_ulp radix2 (FLT_exp (-1074) 53) (fun z => negb (Z.even z)) r) as E.
      rewrite ulp_FLT_small in E; [exact E|reflexivity|]. apply Rlt_trans with (1 := H). apply bpow_lt. reflexivity. }
    assert (D : bpow radix2 (-1074) = 2 * bpow radix2 (-1075)) by (change (-1074)%Z with (1 + -1075)%Z; rewrite bpow_plus; reflexivity).
    pose proof (Rabs_pos r). pose proof u_pos. assert (0 <= u * Rabs r) by (apply Rmult_le_pos; lra). lra.
Qed.

(** The rounding of a sum of two doubles. *)
Lemma plus_error : forall x y : double, Rabs (rnd (B2R x + B2R y) - (B2R x + B2R y)) <= u * Rabs (B2R x + B2R y).
Proof.
  intros x y. pose proof precision. destruct (FLT_plus_error_N_ex radix2 (-1074) 53 (fun z => negb (Z.even z)) (B2R x) (B2R y)) as (d & Hd & E).
  - apply (generic_format_B2R 53 1024).
  - apply (generic_format_B2R 53 1024).
  - change ZnearestE with (Znearest (fun z => negb (Z.even z))). rewrite E.
    replace ((B2R x + B2R y) * (1 + d) - (B2R x + B2R y)) with (d * (B2R x + B2R y)) by ring. rewrite Rabs_mult.
    apply Rmult_le_compat_r; [apply Rabs_pos|]. apply Rle_trans with (1 := Hd).
    assert (U : u_ro radix2 53 = u) by (unfold u_ro; rewrite half_u; reflexivity). rewrite U. pose proof u_pos.
    apply Rmult_le_reg_r with (1 + u); [lra|]. unfold Rdiv. rewrite Rmult_assoc, Rinv_l by lra. nra.
Qed.

Lemma below : forall r, Rabs r <= bpow radix2 1000 -> Rlt_bool (Rabs (rnd r)) (bpow radix2 1024) = true.
Proof. intros r H. apply Rlt_bool_true. apply Rle_lt_trans with (bpow radix2 1000); [apply rnd_bpow; [lia|exact H]|apply bpow_lt; lia]. Qed.

Lemma sum_of : forall x y, is_finite x = true -> is_finite y = true -> Rabs (B2R x + B2R y) <= bpow radix2 1000 ->
  nearest_double (B2R x + B2R y) (dplus x y).
Proof.
  intros x y Fx Fy H. pose proof (Bplus_correct 53 1024 precision exponent mode_NE x y Fx Fy) as C.
  change (SpecFloat.fexp 53 1024) with (FLT_exp (-1074) 53) in C. change (round_mode mode_NE) with ZnearestE in C.
  rewrite below in C by exact H. destruct C as (C1 & C2 & _). split; [exact C2|exact C1].
Qed.
Lemma difference_of : forall x y, is_finite x = true -> is_finite y = true -> Rabs (B2R x - B2R y) <= bpow radix2 1000 ->
  nearest_double (B2R x - B2R y) (dminus x y).
Proof.
  intros x y Fx Fy H. pose proof (Bminus_correct 53 1024 precision exponent mode_NE x y Fx Fy) as C.
  change (SpecFloat.fexp 53 1024) with (FLT_exp (-1074) 53) in C. change (round_mode mode_NE) with ZnearestE in C.
  rewrite below in C by exact H. destruct C as (C1 & C2 & _). split; [exact C2|exact C1].
Qed.
Lemma product_of : forall x y, is_finite x = true -> is_finite y = true -> Rabs (B2R x * B2R y) <= bpow radix2 1000 ->
  nearest_double (B2R x * B2R y) (dtimes x y).
Proof.
  intros x y Fx Fy H. pose proof (Bmult_correct 53 1024 precision exponent mode_NE x y) as C.
  change (SpecFloat.fexp 53 1024) with (FLT_exp (-1074) 53) in C. change (round_mode mode_NE) with ZnearestE in C.
  rewrite below in C by exact H. destruct C as (C1 & C2 & _). split; [unfold dtimes; rewrite C2, Fx, Fy; reflexivity|exact C1].
Qed.
Lemma quotient_of : forall x y, is_finite x = true -> B2R y <> 0 -> Rabs (B2R x / B2R y) <= bpow radix2 1000 ->
  nearest_double (B2R x / B2R y) (ddiv x y).
Proof.
  intros x y Fx Ny H. pose proof (Bdiv_correct 53 1024 precision exponent mode_NE x y Ny) as C.
  change (SpecFloat.fexp 53 1024) with (FLT_exp (-1074) 53) in C. change (round_mode mode_NE) with ZnearestE in C.
  rewrite below in C by exact H. destruct C as (C1 & C2 & _). split; [unfold ddiv; rewrite C2; exact Fx|exact C1].
Qed.

(** Times one, exactly. *)
Lemma rnd_double : forall x : double, rnd (B2R x) = B2R x.
Proof. intros x. apply round_generic; [apply valid_rnd_N|apply (generic_format_B2R 53 1024)]. Qed.

Lemma times_one : forall x y, is_finite x = true -> is_finite y = true -> B2R y = 1 ->
  is_finite (dtimes x y) = true /\ B2R (dtimes x y) = B2R x.
Proof.
  intros x y Fx Fy Ey. pose proof (Bmult_correct 53 1024 precision exponent mode_NE x y) as C.
  change (SpecFloat.fexp 53 1024) with (FLT_exp (-1074) 53) in C. change (round_mode mode_NE) with ZnearestE in C.
  rewrite Ey, Rmult_1_r, rnd_double in C. rewrite Rlt_bool_true in C by apply abs_B2R_lt_emax.
  destruct C as (C1 & C2 & _). split; [unfold dtimes; rewrite C2, Fx, Fy; reflexivity|exact C1].
Qed.
Lemma times_zero : forall x y, is_finite x = true -> is_finite y = true -> B2R y = 0 ->
  is_finite (dtimes x y) = true /\ B2R (dtimes x y) = 0.
Proof.
  intros x y Fx Fy Ey. pose proof (Bmult_correct 53 1024 precision exponent mode_NE x y) as C.
  change (SpecFloat.fexp 53 1024) with (FLT_exp (-1074) 53) in C. change (round_mode mode_NE) with ZnearestE in C.
  rewrite Ey, Rmult_0_r, round_0 in C; [|apply valid_rnd_N]. rewrite Rlt_bool_true in C by (rewrite Rabs_R0; apply bpow_gt_0).
  destruct C as (C1 & C2 & _). split; [unfold dtimes; rewrite C2, Fx, Fy; reflexivity|exact C1].
Qed.

Lemma Q2R_plus : forall q r : Qc, Q2R (this (q + r)%Qc) = Q2R (this q) + Q2R (this r).
Proof. intros q r. rewrite <- Qreals.Q2R_plus. apply Qeq_eqR. unfold Qcplus. cbn [this Q2Qc]. apply Qred_correct. Qed.
Lemma Q2R_minus : forall q r : Qc, Q2R (this (q - r)%Qc) = Q2R (this q) - Q2R (this r).
Proof.
  intros q r. rewrite <- Qreals.Q2R_minus. apply Qeq_eqR. unfold Qcminus, Qcplus, Qcopp. cbn [this Q2Qc]. rewrite !Qred_correct. reflexivity.
Qed.
Lemma Q2R_times : forall q r : Qc, Q2R (this (q * r)%Qc) = Q2R (this q) * Q2R (this r).
Proof. intros q r. rewrite <- Qreals.Q2R_mult. apply Qeq_eqR. unfold Qcmult. cbn [this Q2Qc]. apply Qred_correct. Qed.
Lemma Q2R_0 : Q2R (this 0%Qc) = 0.
Proof. unfold Q2R. cbn. lra. Qed.

Lemma IZR_pow : forall k, (0 <= k)%Z -> IZR (2 ^ k) = bpow radix2 k.
Proof. intros k H. apply (IZR_Zpower radix2 k H). Qed.

Lemma finite_zero_plus : forall x y, is_finite x = true -> is_finite y = true -> B2R x = 0 ->
  is_finite (dplus x y) = true /\ B2R (dplus x y) = B2R y.
Proof.
  intros x y Fx Fy E. pose proof (Bplus_correct 53 1024 precision exponent mode_NE x y Fx Fy) as C.
  change (SpecFloat.fexp 53 1024) with (FLT_exp (-1074) 53) in C. change (round_mode mode_NE) with ZnearestE in C.
  rewrite E, Rplus_0_l, rnd_double in C. rewrite Rlt_bool_true in C by apply abs_B2R_lt_emax. destruct C as (C1 & C2 & _). auto.
Qed.
Lemma finite_plus_zero : forall x y, is_finite x = true -> is_finite y = true -> B2R y = 0 ->
  is_finite (dplus x y) = true /\ B2R (dplus x y) = B2R x.
Proof.
  intros x y Fx Fy E. pose proof (Bplus_correct 53 1024 precision exponent mode_NE x y Fx Fy) as C.
  change (SpecFloat.fexp 53 1024) with (FLT_exp (-1074) 53) in C. change (round_mode mode_NE) with ZnearestE in C.
  rewrite E, Rplus_0_r, rnd_double in C. rewrite Rlt_bool_true in C by apply abs_B2R_lt_emax. destruct C as (C1 & C2 & _). auto.
Qed.


(** ** [x] approximates [q], a sum of numbers of together at most [S], up to [k] roundings *)
Definition approx (k : Z) (S : R) (q : Qc) (x : double) : Prop :=
  0 <= S /\ is_finite x = true /\ Rabs (Q2R (this q)) <= S /\ Rabs (B2R x - Q2R (this q)) <= eps * IZR k * S.

Lemma approx_zero : forall k S, (0 <= k)%Z -> 0 <= S -> approx k S 0%Qc dzero.
Proof.
  intros k S Hk HS. apply IZR_le in Hk. repeat split; auto; rewrite Q2R_0; cbn [B2R dzero]; rewrite ?Rminus_0_r, Rabs_R0; auto.
  pose proof (bpow_gt_0 radix2 (-52)). apply Rmult_le_pos; [|lra]. apply Rmult_le_pos; lra.
Qed.

Lemma approx_weaken : forall k l S T q x, approx k S q x -> (0 <= k <= l)%Z -> S <= T -> approx l T q x.
Proof.
  intros k l S T q x (H0 & F & B & E) [Hk Hl] HT. apply IZR_le in Hk. apply IZR_le in Hl. pose proof (bpow_gt_0 radix2 (-52)).
  repeat split; auto; try lra. apply Rle_trans with (1 := E). apply Rmult_le_compat; try lra; try (apply Rmult_le_pos; lra). apply Rmult_le_compat_l; lra.
Qed.

Lemma approx_nothing : forall k q x, approx k 0 q x -> Q2R (this q) = 0 /\ B2R x = 0.
Proof.
  intros k q x (_ & _ & B & E). rewrite Rmult_0_r in E.
  assert (Q : Q2R (this q) = 0) by (destruct (Req_dec (Q2R (this q)) 0) as [|N]; auto; apply Rabs_pos_lt in N; lra).
  split; [exact Q|]. rewrite Q, Rminus_0_r in E. destruct (Req_dec (B2R x) 0) as [|N]; auto. apply Rabs_pos_lt in N. lra.
Qed.

Lemma eps_half : forall k, (k <= 2 ^ 51)%Z -> eps * IZR k <= / 2.
Proof.
  intros k H. apply IZR_le in H. rewrite IZR_pow in H by lia. apply Rle_trans with (eps * bpow radix2 51).
  - apply Rmult_le_compat_l; [apply bpow_ge_0|exact H].
  - rewrite <- bpow_plus. simpl. lra.
Qed.

Lemma approx_size : forall k S q x, (k <= 2 ^ 51)%Z -> approx k S q x -> Rabs (B2R x) <= S * (3 / 2).
Proof.
  intros k S q x Hk (H0 & F & B & E). pose proof (eps_half k Hk) as HE.
  replace (B2R x) with (B2R x - Q2R (this q) + Q2R (this q)) by ring. apply Rle_trans with (1 := Rabs_triang _ _).
  assert (eps * IZR k * S <= / 2 * S) by (apply Rmult_le_compat_r; lra). lra.
Qed.

Lemma approx_plus : forall k l S T q r x y, (0 <= k <= 2 ^ 51)%Z -> (0 <= l <= 2 ^ 51)%Z -> S + T <= bpow radix2 990 ->
  approx k S q x -> approx l T r y -> approx (Z.max k l + 1) (S + T) (q + r)%Qc (dplus x y).
Proof.
  intros k l S T q r x y Hk Hl HB Hx Hy. pose proof (approx_size k S q x ltac:(lia) Hx) as Zx. pose proof (approx_size l T r y ltac:(lia) Hy) as Zy.
  destruct Hx as (S0 & Fx & Bx & Ex). destruct Hy as (T0 & Fy & By & Ey).
  assert (SS : Rabs (B2R x + B2R y) <= (S + T) * (3 / 2)) by (apply Rle_trans with (1 := Rabs_triang _ _); lra).
  assert (OV : Rabs (B2R x + B2R y) <= bpow radix2 1000).
  { apply Rle_trans with (1 := SS). apply Rle_trans with (bpow radix2 990 * bpow radix2 1).
    - apply Rmult_le_compat; change (bpow radix2 1) with 2; lra.
    - rewrite <- bpow_plus. apply bpow_le. lia. }
  destruct (sum_of x y Fx Fy OV) as [FS VS]. split; [lra|]. split; [exact FS|]. rewrite Q2R_plus, VS.
  split; [apply Rle_trans with (1 := Rabs_triang _ _); lra|].
  pose proof (plus_error x y) as PE.
  set (X := B2R x) in *. set (Y := B2R y) in *. set (Q := Q2R (this q)) in *. set (W := Q2R (this r)) in *.
  replace (rnd (X + Y) - (Q + W)) with ((rnd (X + Y) - (X + Y)) + ((X - Q) + (Y - W))) by ring.
  apply Rle_trans with (1 := Rabs_triang _ _). pose proof (Rabs_triang (X - Q) (Y - W)) as TR. pose proof (bpow_gt_0 radix2 (-52)) as EP.
  assert (PE2 : Rabs (rnd (X + Y) - (X + Y)) <= eps * (S + T)).
  { apply Rle_trans with (1 := PE). rewrite eps_u. pose proof u_pos. apply Rle_trans with (u * ((S + T) * (3 / 2))); [apply Rmult_le_compat_l; lra|]. nra. }
  set (m := Z.max k l). assert (MK : IZR k <= IZR m) by (apply IZR_le; unfold m; lia). assert (ML : IZR l <= IZR m) by (apply IZR_le; unfold m; lia).
  assert (EX : Rabs (X - Q) <= eps * IZR m * S) by (apply Rle_trans with (1 := Ex); apply Rmult_le_compat_r; [lra|]; apply Rmult_le_compat_l; lra).
  assert (EY : Rabs (Y - W) <= eps * IZR m * T) by (apply Rle_trans with (1 := Ey); apply Rmult_le_compat_r; [lra|]; apply Rmult_le_compat_l; lra).
  rewrite plus_IZR. replace (eps * (IZR m + 1) * (S + T)) with (eps * (S + T) + (eps * IZR m * S + eps * IZR m * T)) by ring. lra.
Qed.

(** Adding nothing is exact. *)
Lemma approx_nothing_plus : forall k l T q r x y, approx k 0 q x -> approx l T r y -> approx l T (q + r)%Qc (dplus x y).
Proof.
  intros k l T q r x y Hx Hy. destruct (approx_nothing _ _ _ Hx) as [Q0 X0]. destruct Hx as (_ & Fx & _). destruct Hy as (T0 & Fy & By & Ey).
  destruct (finite_zero_plus x y Fx Fy X0) as [F V]. unfold approx. rewrite Q2R_plus, Q0, Rplus_0_l, V. auto.
Qed.
Lemma approx_plus_nothing : forall k l T q r x y, approx l T q x -> approx k 0 r y -> approx l T (q + r)%Qc (dplus x y).
Proof.
  intros k l T q r x y Hx Hy. destruct (approx_nothing _ _ _ Hy) as [Q0 X0]. destruct Hy as (_ & Fy & _). destruct Hx as (T0 & Fx & Bx & Ex).
  destruct (finite_plus_zero x y Fx Fy X0) as [F V]. unfold approx. rewrite Q2R_plus, Q0, Rplus_0_r, V. auto.
Qed.

(** ** Terms *)
Lemma approx_value : forall T q x, is_number q x -> Rabs (Q2R (this q)) <= T -> approx 0 T q x.
Proof.
  intros T q x [F V] B. pose proof (Rabs_pos (Q2R (this q))). repeat split; auto; [lra|]. rewrite V, Rminus_diag_eq by reflexivity.
  rewrite Rabs_R0, Rmult_0_r, Rmult_0_l. lra.
Qed.

Lemma approx_product : forall S T q r x y, 0 <= S -> 0 <= T -> bpow radix2 (-1000) <= S * T <= bpow radix2 1000 ->
  is_number q x -> is_number r y -> Rabs (Q2R (this q)) <= S -> Rabs (Q2R (this r)) <= T -> approx 1 (S * T) (q * r)%Qc (dtimes x y).
Proof.
  intros S T q r x y HS HT [HL HU] [Fx Vx] [Fy Vy] Bx By.
  assert (B : Rabs (B2R x * B2R y) <= S * T) by (rewrite Rabs_mult, Vx, Vy; apply Rmult_le_compat; auto using Rabs_pos).
  destruct (product_of x y Fx Fy ltac:(lra)) as [F V]. split; [nra|]. split; [exact F|]. rewrite Q2R_times, <- Vx, <- Vy, Rmult_1_r, V. split; [exact B|].
  apply Rle_trans with (1 := rnd_error _). rewrite eps_u. pose proof u_pos.
  assert (E1 : u * Rabs (B2R x * B2R y) <= u * (S * T)) by (apply Rmult_le_compat_l; lra).
  assert (E2 : bpow radix2 (-1075) <= u * (S * T)).
  { apply Rle_trans with (u * bpow radix2 (-1000)); [rewrite <- bpow_plus; apply bpow_le; lia|apply Rmult_le_compat_l; lra]. }
  lra.
Qed.

Lemma approx_one : forall k S q r x y, approx k S q x -> exactly 1 r y -> r = 1%Qc -> approx k S (q * r)%Qc (dtimes x y).
Proof.
  intros k S q r x y (S0 & Fx & Bx & Ex) (Fy & z & E & V & _) ->. assert (z = 1%Z) by (apply zq_inj; symmetry; exact E). subst z.
  destruct (times_one x y Fx Fy V) as [F P]. replace (q * 1)%Qc with q by ring. unfold approx. rewrite P. auto.
Qed.
Lemma approx_none : forall k S q r x y, approx k S q x -> exactly 1 r y -> r = 0%Qc -> approx 0 0 (q * r)%Qc (dtimes x y).
Proof.
  intros k S q r x y (S0 & Fx & Bx & Ex) (Fy & z & E & V & _) ->. assert (z = 0%Z) by (apply zq_inj; symmetry; exact E). subst z.
  destruct (times_zero x y Fx Fy V) as [F P]. replace (q * 0)%Qc with 0%Qc by ring. unfold approx. rewrite P, Q2R_0, Rminus_0_r, Rabs_R0.
  repeat split; auto; lra.
Qed.

(** Squares of differences. *)
Lemma minus_error : forall x y : double, Rabs (rnd (B2R x - B2R y) - (B2R x - B2R y)) <= u * Rabs (B2R x - B2R y).
Proof. intros x y. pose proof (plus_error x (Bopp y)) as H. rewrite B2R_Bopp in H. exact H. Qed.

Lemma approx_square : forall p M q r x y, bpow radix2 (-400) <= M <= bpow radix2 400 ->
  (forall z, is_finite z = true -> Rabs (B2R z) <= bpow radix2 500 ->
     is_finite (p z) = true /\ Rabs (B2R (p z) - B2R z * B2R z) <= eps * (B2R z * B2R z) + bpow radix2 (-1074)) ->
  is_number q x -> is_number r y -> Rabs (Q2R (this q)) <= M -> Rabs (Q2R (this r)) <= M ->
  approx 3 (4 * (M * M)) ((q - r) * (q - r))%Qc (p (dminus x y)).
Proof.
  intros p M q r x y [ML MU] HP [Fx Vx] [Fy Vy] Bx By.
  assert (M0 : 0 < M) by (pose proof (bpow_gt_0 radix2 (-400)); lra).
  set (d := B2R x - B2R y). assert (Bd : Rabs d <= 2 * M).
  { unfold d. rewrite Vx, Vy. apply Rle_trans with (1 := Rabs_triang _ _). rewrite Rabs_Ropp. lra. }
  assert (B4 : 2 * M <= bpow radix2 401) by (change 401%Z with (1 + 400)%Z; rewrite bpow_plus; change (bpow radix2 1) with 2; lra).
  assert (OV : Rabs d <= bpow radix2 1000) by (apply Rle_trans with (1 := Bd), Rle_trans with (1 := B4), bpow_le; lia).
  destruct (difference_of x y Fx Fy OV) as [F V]. pose proof (minus_error x y) as ME. fold d in V, ME. set (z := dminus x y) in *.
  assert (Bz : Rabs (B2R z) <= bpow radix2 500).
  { rewrite V. apply Rle_trans with (bpow radix2 401); [apply rnd_bpow; [lia|lra]|apply bpow_le; lia]. }
  destruct (HP z F Bz) as [Fp Ep]. rewrite <- V in ME. set (e := B2R z) in *. pose proof u_pos as U0. pose proof u_small as U1.
  assert (D2 : d * d <= 4 * (M * M)) by (pose proof (Rabs_pos d); assert (Rabs d * Rabs d <= 2 * M * (2 * M)) by (apply Rmult_le_compat; lra); rewrite <- Rabs_mult, Rabs_pos_eq in H0 by nra; lra).
  assert (DD : 0 <= d * d) by nra.
  assert (E2 : Rabs (e * e - d * d) <= 3 * u * (d * d)).
  { replace (e * e - d * d) with ((e - d) * ((e - d) + 2 * d)) by ring. rewrite Rabs_mult.
    assert (Rabs (e - d + 2 * d) <= (2 + u) * Rabs d).
    { apply Rle_trans with (1 := Rabs_triang _ _). rewrite Rabs_mult, (Rabs_pos_eq 2) by lra. lra. }
    apply Rle_trans with (u * Rabs d * ((2 + u) * Rabs d)); [apply Rmult_le_compat; auto using Rabs_pos|].
    replace (u * Rabs d * ((2 + u) * Rabs d)) with (u * (2 + u) * (Rabs d * Rabs d)) by ring. rewrite <- Rabs_mult, Rabs_pos_eq by nra.
    apply Rmult_le_compat_r; nra. }
  assert (QD : Q2R (this ((q - r) * (q - r))%Qc) = d * d) by (rewrite Q2R_times, Q2R_minus, <- Vx, <- Vy; reflexivity).
  assert (UN : bpow radix2 (-1074) <= u * (M * M)).
  { apply Rle_trans with (u * (bpow radix2 (-400) * bpow radix2 (-400))); [rewrite <- !bpow_plus; apply bpow_le; lia|].
    apply Rmult_le_compat_l; [lra|]. pose proof (bpow_gt_0 radix2 (-400)). apply Rmult_le_compat; lra. }
  split; [nra|]. split; [exact Fp|]. rewrite QD. split; [rewrite Rabs_pos_eq; lra|].
  replace (B2R (p z) - d * d) with ((B2R (p z) - e * e) + (e * e - d * d)) by ring. apply Rle_trans with (1 := Rabs_triang _ _).
  assert (EE : e * e <= (1 + 3 * u) * (d * d)) by (apply Rabs_le_inv in E2; lra).
  set (D := 4 * (M * M)) in *. assert (D0 : 0 <= D) by (unfold D; nra). assert (DM : M * M = D / 4) by (unfold D; lra). rewrite DM in UN.
  assert (E3 : e * e <= (1 + 3 * u) * D) by (apply Rle_trans with (1 := EE); apply Rmult_le_compat_l; lra).
  assert (E4 : eps * (e * e) <= eps * ((1 + 3 * u) * D)) by (apply Rmult_le_compat_l; [apply bpow_ge_0|lra]).
  assert (E5 : 3 * u * (d * d) <= 3 * u * D) by (apply Rmult_le_compat_l; lra).
  rewrite eps_u in *. assert (E6 : u * (3 * u * D) <= u * (/ 4 * D)) by (apply Rmult_le_compat_l; [lra|]; apply Rmult_le_compat_r; lra).
  assert (0 <= u * D) by (apply Rmult_le_pos; lra). lra.
Qed.

(** ** Sums of [n] terms of at most [T], each up to [1 + a] roundings *)
Definition rel (a : Z) (T : R) (n : Z) (q : Qc) (x : double) : Prop := approx (n + a) (IZR n * T) q x.

Definition medium (T : R) : Prop := bpow radix2 (-1000) <= T <= bpow radix2 900.

Lemma medium_pos : forall T, medium T -> 0 < T.
Proof. intros T [H _]. pose proof (bpow_gt_0 radix2 (-1000)). lra. Qed.

Lemma rel_zero : forall a T, (0 <= a)%Z -> rel a T 0 0%Qc dzero.
Proof. intros a T Ha. unfold rel. rewrite Rmult_0_l. apply approx_zero; [lia|lra]. Qed.

Lemma rel_term : forall a T q x, (0 <= a)%Z -> approx (1 + a) T q x -> rel a T 1 q x.
Proof. intros a T q x Ha H. unfold rel. rewrite Rmult_1_l. exact H. Qed.

Lemma rel_plus : forall a T n m q r x y, medium T -> (0 <= a)%Z -> (0 <= n)%Z -> (0 <= m)%Z -> (n + m + a <= 2 ^ 51)%Z -> rel a T n q x -> rel a T m r y ->
  rel a T (n + m) (q + r)%Qc (dplus x y).
Proof.
  intros a T n m q r x y HT Ha Hn Hm HB Hx Hy. unfold rel in *. pose proof (medium_pos T HT) as TP.
  destruct (Z.eq_dec n 0) as [->|Nn]; [rewrite Rmult_0_l in Hx; apply approx_nothing_plus with (1 := Hx); exact Hy|].
  destruct (Z.eq_dec m 0) as [->|Nm]; [rewrite Rmult_0_l in Hy; rewrite Z.add_0_r; apply approx_plus_nothing with (2 := Hy); exact Hx|].
  apply approx_weaken with (Z.max (n + a) (m + a) + 1)%Z (IZR n * T + IZR m * T); [|lia|rewrite plus_IZR; lra].
  apply approx_plus; auto; try lia.
  replace (IZR n * T + IZR m * T) with (IZR (n + m) * T) by (rewrite plus_IZR; ring).
  apply Rle_trans with (bpow radix2 51 * bpow radix2 900); [|rewrite <- bpow_plus; apply bpow_le; lia].
  apply Rmult_le_compat; [apply IZR_le; lia|lra| |apply HT]. rewrite <- IZR_pow by lia. apply IZR_le. lia.
Qed.

(** ** Quotients *)
Lemma rel_quotient : forall a T n q x y, medium T -> (0 <= a)%Z -> (n + a <= 2 ^ 51)%Z -> (1 <= n)%Z -> rel a T n q x ->
  is_finite y = true -> B2R y = IZR n ->
  is_finite (ddiv x y) = true /\ Rabs (B2R (ddiv x y) - Q2R (this q) / IZR n) <= eps * (IZR n + IZR a + 1) * T.
Proof.
  intros a T n q x y HT Ha HB Hn Hx Fy Vy. pose proof (approx_size _ _ _ _ HB Hx) as Sx. destruct Hx as (_ & Fx & Bx & Ex). 
  pose proof (medium_pos T HT) as TP. assert (N1 : 1 <= IZR n) by (apply (IZR_le 1); lia). pose proof (IZR_le _ _ Ha) as A0. cbn [IZR] in A0.
  assert (NI : 0 < / IZR n) by (apply Rinv_0_lt_compat; lra).
  assert (DV : forall z, Rabs (z / IZR n) = Rabs z / IZR n) by (intros z; unfold Rdiv; rewrite Rabs_mult, (Rabs_pos_eq (/ IZR n)) by lra; reflexivity).
  assert (SD : Rabs (B2R x / IZR n) <= T * (3 / 2)).
  { rewrite DV. apply Rmult_le_reg_r with (IZR n); [lra|]. unfold Rdiv at 1. rewrite Rmult_assoc, Rinv_l by lra. lra. }
  assert (OV : Rabs (B2R x / B2R y) <= bpow radix2 1000).
  { rewrite Vy. apply Rle_trans with (1 := SD). destruct HT as [_ HT]. apply Rle_trans with (bpow radix2 900 * bpow radix2 1); [apply Rmult_le_compat; change (bpow radix2 1) with 2; lra|].
    rewrite <- bpow_plus. apply bpow_le. lia. }
  destruct (quotient_of x y Fx ltac:(rewrite Vy; lra) OV) as [F V]. split; [exact F|]. rewrite V, Vy.
  set (r := B2R x / IZR n) in *.
  replace (rnd r - Q2R (this q) / IZR n) with ((rnd r - r) + (B2R x - Q2R (this q)) / IZR n) by (unfold r; field; lra).
  apply Rle_trans with (1 := Rabs_triang _ _). rewrite DV.
  assert (E1 : Rabs (B2R x - Q2R (this q)) / IZR n <= eps * (IZR n + IZR a) * T).
  { apply Rmult_le_reg_r with (IZR n); [lra|]. unfold Rdiv. rewrite Rmult_assoc, Rinv_l by lra. rewrite plus_IZR in Ex.
    replace (eps * (IZR n + IZR a) * T * IZR n) with (eps * (IZR n + IZR a) * (IZR n * T)) by ring. lra. }
  assert (E2 : Rabs (rnd r - r) <= eps * T).
  { apply Rle_trans with (1 := rnd_error _). rewrite eps_u. pose proof u_pos.
    assert (u * Rabs r <= u * (T * (3 / 2))) by (apply Rmult_le_compat_l; lra).
    assert (bpow radix2 (-1075) <= u * bpow radix2 (-2) * T).
    { apply Rle_trans with (u * bpow radix2 (-2) * bpow radix2 (-1000)); [rewrite <- !bpow_plus; apply bpow_le; lia|].
      apply Rmult_le_compat_l; [apply Rmult_le_pos; apply bpow_ge_0|apply HT]. }
    change (bpow radix2 (-2)) with (/ 4) in *. nra. }
  lra.
Qed.

(** A weighted average: [y] approximates the weight [m], [x] the weighted sum [q]. *)
Lemma weighted_quotient : forall k M q m x y, (0 <= k <= 2 ^ 50)%Z -> bpow radix2 (-400) <= M <= bpow radix2 400 -> 0 < Q2R (this m) ->
  approx k (Q2R (this m)) m y -> approx k (M * Q2R (this m)) q x ->
  0 < B2R y /\ is_finite (ddiv x y) = true /\ Rabs (B2R (ddiv x y) - Q2R (this q) / Q2R (this m)) <= eps * (4 * IZR k + 2) * M.
Proof.
  intros k M q m x y [K0 HK] [ML MU] Hm (_ & Fy & By & Ey) Hx. pose proof (approx_size k _ _ _ ltac:(lia) Hx) as Sx. destruct Hx as (_ & Fx & Bx & Ex).
  assert (M0 : 0 < M) by (pose proof (bpow_gt_0 radix2 (-400)); lra).
  assert (EK : 0 <= eps * IZR k <= / 4).
  { apply IZR_le in K0. split; [apply Rmult_le_pos; [apply bpow_ge_0|exact K0]|]. apply IZR_le in HK. rewrite IZR_pow in HK by lia.
    apply Rle_trans with (eps * bpow radix2 50); [apply Rmult_le_compat_l; [apply bpow_ge_0|exact HK]|]. rewrite <- bpow_plus. simpl. lra. }
  set (W := Q2R (this m)) in *. set (Q := Q2R (this q)) in *. set (X := B2R x) in *. set (Y := B2R y) in *. set (t := eps * IZR k) in *.
  assert (YW : 3 / 4 * W <= Y). { apply Rabs_le_inv in Ey. assert (t * W <= / 4 * W) by (apply Rmult_le_compat_r; lra). lra. }
  assert (Y0 : 0 < Y) by lra. split; [exact Y0|].
  assert (DY : forall z, Rabs (z / Y) = Rabs z / Y) by (intros z; unfold Rdiv; rewrite Rabs_mult, (Rabs_pos_eq (/ Y)) by (left; apply Rinv_0_lt_compat; lra); reflexivity).
  assert (LE : forall z b, z <= b * Y -> z / Y <= b) by (intros z b Hz; apply Rmult_le_reg_r with Y; [lra|]; unfold Rdiv; rewrite Rmult_assoc, Rinv_l by lra; lra).
  assert (SD : Rabs (X / Y) <= 2 * M).
  { rewrite DY. apply LE. apply Rle_trans with (1 := Sx). apply Rle_trans with (2 * M * (3 / 4 * W)); [nra|]. apply Rmult_le_compat_l; lra. }
  assert (OV : Rabs (X / Y) <= bpow radix2 1000).
  { apply Rle_trans with (1 := SD). apply Rle_trans with (bpow radix2 1 * bpow radix2 400); [change (bpow radix2 1) with 2; lra|]. rewrite <- bpow_plus. apply bpow_le. lia. }
  destruct (quotient_of x y Fx ltac:(fold Y; lra) OV) as [F V]. split; [exact F|]. rewrite V. fold X Y.
  set (r := X / Y) in *.
  replace (rnd r - Q / W) with ((rnd r - r) + ((X - Q) - Q / W * (Y - W)) / Y) by (unfold r; field; lra).
  apply Rle_trans with (1 := Rabs_triang _ _). rewrite DY.
  assert (QW : Rabs (Q / W) <= M).
  { unfold Rdiv. rewrite Rabs_mult, (Rabs_pos_eq (/ W)) by (left; apply Rinv_0_lt_compat; lra). apply Rmult_le_reg_r with W; [lra|]. rewrite Rmult_assoc, Rinv_l by lra. lra. }
  assert (E1 : Rabs ((X - Q) - Q / W * (Y - W)) / Y <= 4 * t * M).
  { apply LE. apply Rle_trans with (1 := Rabs_triang _ _). rewrite Rabs_Ropp, Rabs_mult.
    assert (Rabs (Q / W) * Rabs (Y - W) <= M * (t * W)) by (apply Rmult_le_compat; auto using Rabs_pos).
    apply Rle_trans with (2 * (t * (M * W))); [lra|]. assert (0 <= t * M) by nra.
    apply Rle_trans with (4 * t * M * (3 / 4 * W)); [nra|]. apply Rmult_le_compat_l; lra. }
  assert (E2 : Rabs (rnd r - r) <= eps * 2 * M).
  { apply Rle_trans with (1 := rnd_error _). rewrite eps_u. pose proof u_pos.
    assert (u * Rabs r <= u * (2 * M)) by (apply Rmult_le_compat_l; lra).
    assert (bpow radix2 (-1075) <= u * M).
    { apply Rle_trans with (u * bpow radix2 (-400)); [rewrite <- !bpow_plus; apply bpow_le; lia|]. apply Rmult_le_compat_l; lra. }
    assert (0 <= u * M) by (apply Rmult_le_pos; lra). lra. }
  replace (eps * (4 * IZR k + 2) * M) with (eps * 2 * M + 4 * t * M) by (unfold t; ring). lra.
Qed.

(** ** Any order of addition: terms that count [0] or [1] *)
Lemma zsum_app : forall l m, zsum (l ++ m) = (zsum l + zsum m)%Z.
Proof. intros l m. induction l; cbn [zsum app]; lia. Qed.
Lemma zsum_perm : forall l m, Permutation l m -> zsum l = zsum m.
Proof. intros l m H. induction H; cbn [zsum]; lia. Qed.

Lemma rel_adds : forall l x, adds l x -> forall a T qc, medium T -> (0 <= a)%Z ->
  Forall2 (fun (p : Qc * Z) y => (0 <= snd p)%Z /\ rel a T (snd p) (fst p) y) qc l ->
  (zsum (map snd qc) + a <= 2 ^ 51)%Z -> rel a T (zsum (map snd qc)) (qsum (map fst qc)) x.
Proof.
  intros l x H. induction H as [|x|l1 l2 l x y H1 IH1 H2 IH2 HP]; intros a T qc HT Ha HF HB.
  - inversion HF; subst. apply rel_zero. exact Ha.
  - inversion HF as [|p ? t ? [Hp Hr] Ht]; subst. inversion Ht; subst. cbn [map zsum qsum fold_right]. rewrite Z.add_0_r.
    replace (fst p + 0)%Qc with (fst p) by ring. exact Hr.
  - apply Forall2_flip in HF. destruct (@Permutation.Permutation_Forall2 _ _ _ _ _ _ HP HF) as (q' & HP' & HF').
    apply Forall2_flip in HF'. cbv beta in HF'. apply Forall2_app_inv_r in HF'. destruct HF' as (q1 & q2 & F1 & F2 & ->).
    assert (NN : forall m l0, Forall2 (fun (p : Qc * Z) y => (0 <= snd p)%Z /\ rel a T (snd p) (fst p) y) m l0 -> (0 <= zsum (map snd m))%Z).
    { intros m l0 HQ. induction HQ as [|? ? ? ? [HH _] HQ IHq]; cbn [map zsum]; lia. }
    pose proof (NN _ _ F1). pose proof (NN _ _ F2).
    rewrite (qsum_perm _ _ (Permutation_map fst HP')), (zsum_perm _ _ (Permutation_map snd HP')), !map_app, qsum_app, zsum_app in *.
    apply rel_plus; auto; [apply IH1|apply IH2]; auto; lia.
Qed.
