(** * CenterFloatTrig: rounding errors on the circle *)

From Coq Require Import ZArith Reals List Bool Lia Lra Psatz Permutation.
From Flocq Require Import Core Relative BinarySingleNaN.
From Verif Require Import Base Center SpecCenter CenterProofs CenterTop Double SpecDouble DoubleProofs DoubleError CirclesFloat CirclesFloatGrid
  CenterFloat SpecCenterFloat CenterFloatSums.
Import ListNotations.
Open Scope R_scope.

Local Notation rnd := (round radix2 (FLT_exp (-1074) 53) ZnearestE).
Local Notation u := (bpow radix2 (-53)).
Local Notation eps := (bpow radix2 (-52)).

Lemma cos_lipschitz : forall a b, Rabs (cos b - cos a) <= Rabs (b - a).
Proof.
  intros a b. destruct (MVT_abs cos (fun x => - sin x) a b) as (c & E & _); [intros; apply derivable_pt_lim_cos|].
  rewrite E. pose proof (Rabs_pos (b - a)). assert (Rabs (- sin c) <= 1) by (rewrite Rabs_Ropp; apply Rabs_le; apply SIN_bound). nra.
Qed.
Lemma sin_lipschitz : forall a b, Rabs (sin b - sin a) <= Rabs (b - a).
Proof.
  intros a b. destruct (MVT_abs sin cos a b) as (c & E & _); [intros; apply derivable_pt_lim_sin|].
  rewrite E. pose proof (Rabs_pos (b - a)). assert (Rabs (cos c) <= 1) by (apply Rabs_le; apply COS_bound). nra.
Qed.
Lemma atan_le : forall t, Rabs (atan t) <= Rabs t.
Proof.
  intros t. destruct (MVT_abs atan (fun x => / (1 + x ^ 2)) 0 t) as (c & E & _); [intros; apply derivable_pt_lim_atan|].
  rewrite atan_0, !Rminus_0_r in E. rewrite E. pose proof (Rabs_pos t).
  assert (0 < / (1 + c ^ 2) <= 1).
  { assert (0 <= c ^ 2) by (apply pow2_ge_0). split; [apply Rinv_0_lt_compat; lra|]. rewrite <- Rinv_1. apply Rinv_le_contravar; lra. }
  rewrite Rabs_pos_eq by lra. nra.
Qed.

Lemma u_tiny : u <= / 1000000.
Proof. apply Rle_trans with (bpow radix2 (-20)); [apply bpow_le; lia|]. change (bpow radix2 (-20)) with (/ 1048576). lra. Qed.

(** Pi as a double. *)
Lemma pi_double : finite lit_pi /\ Rabs (val lit_pi - PI) <= 2 * u.
Proof. split; [apply pi_value|]. rewrite <- eps_u. exact pi_close. Qed.
Lemma two_pi_value : finite two_pi /\ val two_pi = 2 * val lit_pi.
Proof.
  assert (E : B2SF two_pi = SpecFloat.S754_finite false 7074237752028440 (-50)) by (vm_compute; reflexivity).
  destruct (literal _ _ _ E) as [F V]. split; [exact F|]. unfold val. rewrite V, (proj2 pi_value).
  replace (-50)%Z with (1 + -51)%Z by lia. rewrite bpow_plus. change (bpow radix2 1) with 2. ring.
Qed.
Lemma pi_range : 3 < PI < 32 / 10.
Proof.
  pose proof pi_close as H. rewrite (proj2 pi_value) in H. apply Rabs_le_inv in H. change (bpow radix2 (-51)) with (/ 2251799813685248) in H.
  assert (eps <= / 1000000) by (rewrite eps_u; pose proof u_tiny; assert (u <= / 2000000) by (apply Rle_trans with (bpow radix2 (-22)); [apply bpow_le; lia|change (bpow radix2 (-22)) with (/ 4194304); lra]); lra).
  lra.
Qed.
Lemma lit_pi_range : 3 < val lit_pi < 32 / 10.
Proof.
  unfold val. rewrite (proj2 pi_value). change (bpow radix2 (-51)) with (/ 2251799813685248). lra.
Qed.

(** An angle. *)
Lemma theta_error : forall v len K, finite v -> finite len -> bpow radix2 (-100) <= val len <= bpow radix2 100 -> 1 <= K <= bpow radix2 20 ->
  Rabs (val v) <= K * val len ->
  finite (ddiv (dtimes two_pi v) len) /\ Rabs (val (ddiv (dtimes two_pi v) len) - 2 * PI * val v / val len) <= 32 * u * K /\
  Rabs (val (ddiv (dtimes two_pi v) len)) <= 8 * K.
Proof.
  intros v len K Fv Fl [L0 L1] [K0 K1] HV. destruct two_pi_value as [F2 E2]. destruct pi_double as [_ EP]. pose proof lit_pi_range as PR. pose proof pi_range as PR'.
  assert (LP : 0 < val len) by (apply Rlt_le_trans with (2 := L0); apply bpow_gt_0). pose proof u_pos as UP. pose proof u_tiny as UT.
  set (x := val v) in *. set (y := val len) in *. set (p := val lit_pi) in *.
  assert (KL : K * y <= bpow radix2 120) by (replace 120%Z with (20 + 100)%Z by lia; rewrite bpow_plus; apply Rmult_le_compat; lra).
  assert (B1 : Rabs (2 * p * x) <= 7 * (K * y)).
  { rewrite Rabs_mult, (Rabs_pos_eq (2 * p)) by lra. apply Rmult_le_compat; [lra|apply Rabs_pos|lra|exact HV]. }
  pose proof (product_of two_pi v F2 Fv) as PO. change (B2R two_pi) with (val two_pi) in PO. change (B2R v) with x in PO. rewrite E2 in PO. fold p in PO.
  destruct PO as [F E].
  { apply Rle_trans with (1 := B1). apply Rle_trans with (8 * bpow radix2 120); [pose proof (bpow_gt_0 radix2 120); lra|]. change 8 with (bpow radix2 3). rewrite <- bpow_plus. apply bpow_le. lia. }
  set (a := val (dtimes two_pi v)). change (B2R (dtimes two_pi v)) with a in E.
  assert (T1 : bpow radix2 (-1075) <= u * y).
  { apply Rle_trans with (u * bpow radix2 (-100)); [rewrite <- bpow_plus; apply bpow_le; lia|apply Rmult_le_compat_l; lra]. }
  assert (A1 : Rabs (a - 2 * p * x) <= 8 * u * K * y).
  { rewrite E. apply Rle_trans with (1 := rnd_error _). assert (u * Rabs (2 * p * x) <= u * (7 * (K * y))) by (apply Rmult_le_compat_l; lra).
    assert (u * y <= u * (K * y)) by (apply Rmult_le_compat_l; [lra|]; nra). lra. }
  assert (A2 : Rabs (a / y - 2 * PI * x / y) <= 12 * u * K).
  { replace (a / y - 2 * PI * x / y) with (((a - 2 * p * x) + 2 * (p - PI) * x) * / y) by (field; lra). rewrite Rabs_mult, (Rabs_inv y), (Rabs_pos_eq y) by lra.
    apply Rmult_le_reg_r with y; [lra|]. rewrite Rmult_assoc, Rinv_l, Rmult_1_r by lra. apply Rle_trans with (1 := Rabs_triang _ _).
    rewrite (Rabs_mult (2 * (p - PI))), (Rabs_mult 2), (Rabs_pos_eq 2) by lra.
    assert (2 * Rabs (p - PI) * Rabs x <= 2 * (2 * u) * (K * y)) by (apply Rmult_le_compat; try apply Rabs_pos; [pose proof (Rabs_pos (p - PI)); lra|lra|exact HV]). lra. }
  assert (Q0 : Rabs (2 * PI * x / y) <= 7 * K).
  { replace (2 * PI * x / y) with (2 * PI * (x * / y)) by (field; lra). rewrite Rabs_mult, (Rabs_pos_eq (2 * PI)) by lra.
    apply Rmult_le_compat; [lra|apply Rabs_pos|lra|]. rewrite Rabs_mult, (Rabs_inv y), (Rabs_pos_eq y) by lra.
    apply Rmult_le_reg_r with y; [lra|]. rewrite Rmult_assoc, Rinv_l, Rmult_1_r by lra. exact HV. }
  assert (UK : 32 * u * K <= K / 100) by nra.
  assert (Q1 : Rabs (a / y) <= 8 * K).
  { replace (a / y) with ((a / y - 2 * PI * x / y) + 2 * PI * x / y) by ring. apply Rle_trans with (1 := Rabs_triang _ _). lra. }
  pose proof (quotient_of (dtimes two_pi v) len F) as QO. change (B2R (dtimes two_pi v)) with a in QO. change (B2R len) with y in QO.
  destruct QO as [F3 E3]; [lra| |].
  { apply Rle_trans with (1 := Q1). apply Rle_trans with (8 * bpow radix2 20); [lra|]. change 8 with (bpow radix2 3). rewrite <- bpow_plus. apply bpow_le. lia. }
  set (b := val (ddiv (dtimes two_pi v) len)). change (B2R (ddiv (dtimes two_pi v) len)) with b in E3.
  assert (T2 : bpow radix2 (-1075) <= u * K) by (apply Rle_trans with (u * 1); [rewrite Rmult_1_r; apply bpow_le; lia|apply Rmult_le_compat_l; lra]).
  assert (B3 : Rabs (b - a / y) <= 9 * u * K).
  { rewrite E3. apply Rle_trans with (1 := rnd_error _). assert (u * Rabs (a / y) <= u * (8 * K)) by (apply Rmult_le_compat_l; lra). lra. }
  assert (B4 : Rabs (b - 2 * PI * x / y) <= 32 * u * K).
  { replace (b - 2 * PI * x / y) with ((b - a / y) + (a / y - 2 * PI * x / y)) by ring. apply Rle_trans with (1 := Rabs_triang _ _). nra. }
  split; [exact F3|]. split; [exact B4|].
  replace b with ((b - 2 * PI * x / y) + 2 * PI * x / y) by ring. apply Rle_trans with (1 := Rabs_triang _ _). lra.
Qed.

(** Two directions that are almost the same. *)
Lemma directions : forall r f f' r' x z d, 0 < r -> 0 <= r' -> 0 <= d -> 4 * d <= r ->
  x = r' * cos f' -> z = r' * sin f' -> Rabs (x - r * cos f) <= d -> Rabs (z - r * sin f) <= d ->
  exists m : Z, Rabs (f' - f - IZR m * (2 * PI)) <= 4 * d / r.
Proof.
  intros r f f' r' x z d HR HR' HD H4 EX EZ DX DZ.
  destruct (near (2 * PI) (f' - f) 0) as (n & N1 & N2); [pose proof PI_RGT_0; lra|]. exists (- n)%Z.
  set (w := f' - f + IZR n * (2 * PI)) in *. replace (f' - f - IZR (- n) * (2 * PI)) with w by (unfold w; rewrite opp_IZR; ring).
  rewrite Rminus_0_r in *.
  assert (C : cos w = cos f' * cos f + sin f' * sin f) by (unfold w; rewrite cos_turn, cos_minus; reflexivity).
  assert (S : sin w = sin f' * cos f - cos f' * sin f) by (unfold w; rewrite sin_turn, sin_minus; reflexivity).
  pose proof (COS_bound f) as CB. pose proof (SIN_bound f) as SB.
  apply Rabs_le_inv in DX. apply Rabs_le_inv in DZ.
  assert (P1 : r - 2 * d <= r' * cos w).
  { rewrite C. replace (r' * (cos f' * cos f + sin f' * sin f)) with (r + ((x - r * cos f) * cos f + (z - r * sin f) * sin f)).
    - assert (- d <= (x - r * cos f) * cos f) by nra. assert (- d <= (z - r * sin f) * sin f) by nra. lra.
    - rewrite EX, EZ. pose proof (sin2_cos2 f) as Q. unfold Rsqr in Q. nra. }
  assert (P2 : Rabs (r' * sin w) <= 2 * d).
  { rewrite S. replace (r' * (sin f' * cos f - cos f' * sin f)) with ((z - r * sin f) * cos f - (x - r * cos f) * sin f) by (rewrite EX, EZ; ring).
    apply Rabs_le. assert (- d <= (z - r * sin f) * cos f <= d) by nra. assert (- d <= (x - r * cos f) * sin f <= d) by nra. lra. }
  assert (CW : 0 < cos w) by (destruct (Rle_or_lt (cos w) 0); [|assumption]; nra).
  assert (HW : - (PI / 2) < w < PI / 2) by (apply cos_pos_range; [lra|exact CW]).
  rewrite <- (atan_tan w) by exact HW. apply Rle_trans with (1 := atan_le _). unfold tan.
  unfold Rdiv at 1. rewrite Rabs_mult, (Rabs_inv (cos w)), (Rabs_pos_eq (cos w)) by lra.
  apply Rmult_le_reg_r with (cos w); [exact CW|]. rewrite Rmult_assoc, Rinv_l, Rmult_1_r by lra.
  assert (R0 : 0 < r') by nra. apply Rmult_le_reg_l with r'; [exact R0|]. rewrite Rabs_mult, (Rabs_pos_eq r') in P2 by lra.
  apply Rle_trans with (1 := P2). replace (r' * (4 * d / r * cos w)) with (4 * d / r * (r' * cos w)) by ring.
  assert (0 <= 4 * d / r) by (apply Rmult_le_pos; [lra|]; left; apply Rinv_0_lt_compat; exact HR).
  apply Rle_trans with (4 * d / r * (r / 2)); [right; field; lra|]. apply Rmult_le_compat_l; [assumption|lra].
Qed.

(** The average of a function on the circle. *)
Lemma average_near : forall {A} (l : list A) (w f : A -> R) (g : A -> double) (avg : list double -> double) e d,
  (forall a, In a l -> 0 <= w a) -> 0 < total w l ->
  (forall a, In a l -> Rabs (val (g a) - f a) <= d) ->
  Rabs (val (avg (map g l)) - total (fun a => w a * val (g a)) l / total w l) <= e ->
  Rabs (val (avg (map g l)) - total (fun a => w a * f a) l / total w l) <= d + e.
Proof.
  intros A l w f g avg e d HW HT HG HA. set (W := total w l) in *.
  replace (val (avg (map g l)) - total (fun a => w a * f a) l / W)
    with ((val (avg (map g l)) - total (fun a => w a * val (g a)) l / W) + (total (fun a => w a * val (g a)) l - total (fun a => w a * f a) l) * / W) by (field; lra).
  apply Rle_trans with (1 := Rabs_triang _ _).
  assert (Rabs (total (fun a => w a * val (g a)) l - total (fun a => w a * f a) l) <= d * W).
  { apply Rle_trans with (total (fun a => d * w a) l); [|rewrite total_scal; apply Rle_refl]. apply total_diff. intros a Ha.
    replace (w a * val (g a) - w a * f a) with (w a * (val (g a) - f a)) by ring. rewrite Rabs_mult, (Rabs_pos_eq (w a)) by (apply HW; exact Ha).
    rewrite Rmult_comm. apply Rmult_le_compat_r; [apply HW|apply HG]; exact Ha. }
  assert (Rabs ((total (fun a => w a * val (g a)) l - total (fun a => w a * f a) l) * / W) <= d).
  { rewrite Rabs_mult, (Rabs_inv W), (Rabs_pos_eq W) by lra. apply Rmult_le_reg_r with W; [exact HT|]. rewrite Rmult_assoc, Rinv_l, Rmult_1_r by lra. assumption. }
  lra.
Qed.

Lemma opp_value : forall x, finite x -> finite (Bopp x) /\ val (Bopp x) = - val x.
Proof. intros x F. split; [unfold finite; rewrite is_finite_Bopp; exact F|apply B2R_Bopp]. Qed.

(** From the angle to the position in the box. *)
Lemma position_error : forall len t f, finite len -> finite t -> bpow radix2 (-100) <= val len <= bpow radix2 100 ->
  Rabs (val t - f) <= 4 * u -> - PI <= f <= PI -> Rabs (val t) <= val lit_pi ->
  let c := ddiv (dtimes len (dplus t lit_pi)) two_pi in
  finite c /\ Rabs (val c - val len * (f + PI) / (2 * PI)) <= 16 * u * val len.
Proof.
  intros len t f Fl Ft [L0 L1] HT HF HP c. destruct two_pi_value as [F2 E2]. destruct pi_double as [F1 EP]. pose proof lit_pi_range as PR. pose proof pi_range as PR'.
  assert (LP : 0 < val len) by (apply Rlt_le_trans with (2 := L0); apply bpow_gt_0). pose proof u_pos as UP. pose proof u_tiny as UT.
  pose proof (sum_of t lit_pi Ft F1) as SO. change (B2R t) with (val t) in SO. change (B2R lit_pi) with (val lit_pi) in SO.
  apply Rabs_le_inv in HP. apply Rabs_le_inv in EP. apply Rabs_le_inv in HT. set (p := val lit_pi) in *. set (y := val len) in *.
  assert (SB : Rabs (val t + p) <= 7) by (apply Rabs_le; lra).
  assert (B7 : 64 <= bpow radix2 1000) by (change 64 with (bpow radix2 6); apply bpow_le; lia).
  destruct SO as [F3 E3]; [lra|]. set (s := val (dplus t lit_pi)). change (B2R (dplus t lit_pi)) with s in E3.
  pose proof (plus_error t lit_pi) as PL. change (B2R t) with (val t) in PL. change (B2R lit_pi) with p in PL. rewrite <- E3 in PL.
  assert (PL2 : u * Rabs (val t + p) <= 7 * u) by nra. apply Rle_trans with (2 := PL2) in PL. apply Rabs_le_inv in PL.
  assert (S1 : Rabs (s - (f + PI)) <= 13 * u) by (apply Rabs_le; lra). apply Rabs_le_inv in S1.
  assert (S2 : - / 10 <= s <= 7) by lra.
  pose proof (product_of len (dplus t lit_pi) Fl F3) as PO. change (B2R len) with y in PO. change (B2R (dplus t lit_pi)) with s in PO.
  assert (YS : Rabs (y * s) <= 7 * y) by (apply Rabs_le; nra).
  assert (LB : 8 * y <= bpow radix2 1000) by (apply Rle_trans with (bpow radix2 3 * bpow radix2 100); [change (bpow radix2 3) with 8; lra|rewrite <- bpow_plus; apply bpow_le; lia]).
  destruct PO as [F4 E4]; [lra|]. set (q := val (dtimes len (dplus t lit_pi))). change (B2R (dtimes len (dplus t lit_pi))) with q in E4.
  assert (T1 : bpow radix2 (-1075) <= u * y).
  { apply Rle_trans with (u * bpow radix2 (-100)); [rewrite <- bpow_plus; apply bpow_le; lia|apply Rmult_le_compat_l; lra]. }
  assert (Q1 : Rabs (q - y * s) <= 8 * u * y).
  { rewrite E4. apply Rle_trans with (1 := rnd_error _). assert (u * Rabs (y * s) <= u * (7 * y)) by (apply Rmult_le_compat_l; lra). lra. }
  pose proof (quotient_of (dtimes len (dplus t lit_pi)) two_pi F4) as QO. change (B2R (dtimes len (dplus t lit_pi))) with q in QO.
  change (B2R two_pi) with (val two_pi) in QO. rewrite E2 in QO. fold p in QO. fold c in QO.
  assert (X0 : Rabs (y * s / (2 * p) - y * (f + PI) / (2 * PI)) <= 5 * u * y).
  { replace (y * s / (2 * p) - y * (f + PI) / (2 * PI)) with (y * (((s - (f + PI)) + (f + PI) * ((PI - p) * / PI)) * / (2 * p))) by (field; lra).
    rewrite Rabs_mult, (Rabs_pos_eq y) by lra. rewrite (Rmult_comm (5 * u)). apply Rmult_le_compat_l; [lra|].
    rewrite Rabs_mult, (Rabs_inv (2 * p)), (Rabs_pos_eq (2 * p)) by lra. apply Rmult_le_reg_r with (2 * p); [lra|]. rewrite Rmult_assoc, Rinv_l, Rmult_1_r by lra.
    apply Rle_trans with (1 := Rabs_triang _ _). assert (A1 : Rabs (s - (f + PI)) <= 13 * u) by (apply Rabs_le; lra).
    assert (A2 : Rabs ((f + PI) * ((PI - p) * / PI)) <= 2 * PI * (2 * u * / PI)).
    { rewrite !Rabs_mult, (Rabs_inv PI), (Rabs_pos_eq PI), (Rabs_pos_eq (f + PI)) by lra. apply Rmult_le_compat; [lra| |lra|].
      - apply Rmult_le_pos; [apply Rabs_pos|left; apply Rinv_0_lt_compat; lra].
      - apply Rmult_le_compat_r; [left; apply Rinv_0_lt_compat; lra|]. apply Rabs_le; lra. }
    replace (2 * PI * (2 * u * / PI)) with (4 * u) in A2 by (field; lra). nra. }
  assert (X1 : Rabs (q / (2 * p) - y * s / (2 * p)) <= 2 * u * y).
  { replace (q / (2 * p) - y * s / (2 * p)) with ((q - y * s) * / (2 * p)) by (field; lra). rewrite Rabs_mult, (Rabs_inv (2 * p)), (Rabs_pos_eq (2 * p)) by lra.
    apply Rmult_le_reg_r with (2 * p); [lra|]. rewrite Rmult_assoc, Rinv_l, Rmult_1_r by lra. apply Rle_trans with (1 := Q1).
    assert (0 <= u * y) by (apply Rmult_le_pos; lra). apply Rle_trans with (2 * u * y * 6); [lra|apply Rmult_le_compat_l; lra]. }
  assert (X2 : Rabs (y * (f + PI) / (2 * PI)) <= y).
  { rewrite Rabs_pos_eq.
    - apply Rmult_le_reg_r with (2 * PI); [lra|]. unfold Rdiv. rewrite Rmult_assoc, Rinv_l, Rmult_1_r by lra. apply Rmult_le_compat_l; lra.
    - apply Rmult_le_pos; [apply Rmult_le_pos; lra|left; apply Rinv_0_lt_compat; lra]. }
  assert (X3 : Rabs (q / (2 * p) - y * (f + PI) / (2 * PI)) <= 7 * u * y).
  { replace (q / (2 * p) - y * (f + PI) / (2 * PI)) with ((q / (2 * p) - y * s / (2 * p)) + (y * s / (2 * p) - y * (f + PI) / (2 * PI))) by ring.
    apply Rle_trans with (1 := Rabs_triang _ _). lra. }
  assert (X4 : Rabs (q / (2 * p)) <= 2 * y).
  { replace (q / (2 * p)) with ((q / (2 * p) - y * (f + PI) / (2 * PI)) + y * (f + PI) / (2 * PI)) by ring. apply Rle_trans with (1 := Rabs_triang _ _).
    assert (u * y <= / 1000000 * y) by (apply Rmult_le_compat_r; lra). lra. }
  destruct QO as [F5 E5]; [lra|lra|]. split; [exact F5|]. change (B2R c) with (val c) in E5.
  assert (X5 : Rabs (val c - q / (2 * p)) <= 3 * u * y).
  { rewrite E5. apply Rle_trans with (1 := rnd_error _). assert (u * Rabs (q / (2 * p)) <= u * (2 * y)) by (apply Rmult_le_compat_l; lra). lra. }
  replace (val c - y * (f + PI) / (2 * PI)) with ((val c - q / (2 * p)) + (q / (2 * p) - y * (f + PI) / (2 * PI))) by ring.
  apply Rle_trans with (1 := Rabs_triang _ _). assert (0 <= u * y) by (apply Rmult_le_pos; lra). lra.
Qed.

(** One axis. *)
Lemma axis_error : forall {A} T (l : list A) (v : A -> double) (w : A -> R) (avg : list double -> double) e len K c0 rho,
  precise T -> (forall a, In a l -> 0 <= w a) -> 0 < total w l ->
  (forall g : A -> double, (forall a, In a l -> finite (g a) /\ Rabs (val (g a)) <= 1) ->
     finite (avg (map g l)) /\ Rabs (val (avg (map g l)) - total (fun a => w a * val (g a)) l / total w l) <= e) ->
  finite len -> bpow radix2 (-100) <= val len <= bpow radix2 100 -> 1 <= K <= bpow radix2 20 ->
  (forall a, In a l -> finite (v a) /\ Rabs (val (v a)) <= K * val len) ->
  0 <= e ->
  total (fun a => w a * cos (2 * PI * val (v a) / val len)) l = rho * cos (2 * PI * c0 / val len) ->
  total (fun a => w a * sin (2 * PI * val (v a) / val len)) l = rho * sin (2 * PI * c0 / val len) ->
  4 * (64 * u * K + e) <= rho / total w l <= 1 ->
  let c := faxis_center T true avg len (map v l) in
  finite c /\ exists m : Z, Rabs (val c - (c0 + IZR m * val len)) <= val len * ((128 * u * K + e) / (rho / total w l)).
Proof.
  intros A T l v w avg e len K c0 rho [HC HAT] HW HWT HA FL [L0 L1] [K0 K1] HV HE SC SS [HR HR1] c.
  assert (LP : 0 < val len) by (apply Rlt_le_trans with (2 := L0); apply bpow_gt_0). pose proof u_pos as UP. pose proof u_tiny as UT. pose proof pi_range as PR.
  set (W := total w l) in *. set (r := rho / W) in *.
  assert (RP : 0 < r) by nra.
  set (th := fun a => ddiv (dtimes two_pi (v a)) len).
  assert (TH : forall a, In a l -> finite (th a) /\ Rabs (val (th a) - 2 * PI * val (v a) / val len) <= 32 * u * K /\ Rabs (val (th a)) <= bpow radix2 30).
  { intros a Ha. destruct (HV a Ha) as [Fv Bv]. destruct (theta_error (v a) len K Fv FL (conj L0 L1) (conj K0 K1) Bv) as (F & E & B).
    split; [exact F|]. split; [exact E|]. apply Rle_trans with (1 := B). apply Rle_trans with (bpow radix2 3 * bpow radix2 20); [change (bpow radix2 3) with 8; lra|rewrite <- bpow_plus; apply bpow_le; lia]. }
  assert (E2U : eps = 2 * u) by apply eps_u.
  assert (CX : forall a, In a l -> (finite (t_cos T (th a)) /\ Rabs (val (t_cos T (th a))) <= 1) /\ Rabs (val (t_cos T (th a)) - cos (2 * PI * val (v a) / val len)) <= 64 * u * K).
  { intros a Ha. destruct (TH a Ha) as (F & E & B). destruct (HC _ F B) as [[[F1 E1] B1] _]. split; [split; assumption|].
    change (B2R (th a)) with (val (th a)) in E1. change (B2R (t_cos T (th a))) with (val (t_cos T (th a))) in E1.
    replace (val (t_cos T (th a)) - cos (2 * PI * val (v a) / val len)) with ((val (t_cos T (th a)) - cos (val (th a))) + (cos (val (th a)) - cos (2 * PI * val (v a) / val len))) by ring.
    apply Rle_trans with (1 := Rabs_triang _ _). pose proof (cos_lipschitz (2 * PI * val (v a) / val len) (val (th a))). nra. }
  assert (CZ : forall a, In a l -> (finite (t_sin T (th a)) /\ Rabs (val (t_sin T (th a))) <= 1) /\ Rabs (val (t_sin T (th a)) - sin (2 * PI * val (v a) / val len)) <= 64 * u * K).
  { intros a Ha. destruct (TH a Ha) as (F & E & B). destruct (HC _ F B) as [_ [[F1 E1] B1]]. split; [split; assumption|].
    change (B2R (th a)) with (val (th a)) in E1. change (B2R (t_sin T (th a))) with (val (t_sin T (th a))) in E1.
    replace (val (t_sin T (th a)) - sin (2 * PI * val (v a) / val len)) with ((val (t_sin T (th a)) - sin (val (th a))) + (sin (val (th a)) - sin (2 * PI * val (v a) / val len))) by ring.
    apply Rle_trans with (1 := Rabs_triang _ _). pose proof (sin_lipschitz (2 * PI * val (v a) / val len) (val (th a))). nra. }
  destruct (HA (fun a => t_cos T (th a)) (fun a Ha => proj1 (CX a Ha))) as [FX EX].
  destruct (HA (fun a => t_sin T (th a)) (fun a Ha => proj1 (CZ a Ha))) as [FZ EZ].
  apply (average_near l w _ _ avg e (64 * u * K) HW HWT (fun a Ha => proj2 (CX a Ha))) in EX. fold W in EX. rewrite SC in EX.
  apply (average_near l w _ _ avg e (64 * u * K) HW HWT (fun a Ha => proj2 (CZ a Ha))) in EZ. fold W in EZ. rewrite SS in EZ.
  replace (rho * cos (2 * PI * c0 / val len) / W) with (r * cos (2 * PI * c0 / val len)) in EX by (unfold r; field; lra).
  replace (rho * sin (2 * PI * c0 / val len) / W) with (r * sin (2 * PI * c0 / val len)) in EZ by (unfold r; field; lra).
  set (f := 2 * PI * c0 / val len) in *. set (d := 64 * u * K + e) in *.
  set (X := avg (map (fun a => t_cos T (th a)) l)) in *. set (Z := avg (map (fun a => t_sin T (th a)) l)) in *.
  assert (EC : c = ddiv (dtimes len (dplus (t_atan2 T (Bopp Z) (Bopp X)) lit_pi)) two_pi).
  { unfold c, faxis_center. cbn [negb]. rewrite !map_map. reflexivity. }
  destruct (opp_value X FX) as [FX' VX]. destruct (opp_value Z FZ) as [FZ' VZ].
  destruct (HAT (Bopp Z) (Bopp X) FZ' FX') as [[FT BT] HAN]. rewrite Rminus_0_r in BT.
  change (B2R (Bopp Z)) with (val (Bopp Z)) in HAN. change (B2R (Bopp X)) with (val (Bopp X)) in HAN. rewrite VX, VZ in HAN.
  assert (D0 : 0 <= d) by (unfold d; nra).
  assert (NZ : ~ (- val X = 0 /\ - val Z = 0)).
  { intros [Q1 Q2]. replace (val X) with 0 in EX by lra. replace (val Z) with 0 in EZ by lra. rewrite Rminus_0_l, Rabs_Ropp in EX, EZ. apply Rabs_le_inv in EX. apply Rabs_le_inv in EZ.
    pose proof (sin2_cos2 f) as Q. unfold Rsqr in Q.
    assert (r * r = r * cos f * (r * cos f) + r * sin f * (r * sin f)) by nra. nra. }
  destruct (HAN NZ) as (a & [[A1 A2] (rh & RH & GX & GZ)] & [_ EA]).
  change (B2R (t_atan2 T (Bopp Z) (Bopp X))) with (val (t_atan2 T (Bopp Z) (Bopp X))) in *. set (t := t_atan2 T (Bopp Z) (Bopp X)) in *.
  assert (E51 : bpow radix2 (-51) = 4 * u) by (replace (-51)%Z with (2 + -53)%Z by lia; rewrite bpow_plus; reflexivity). rewrite E51 in EA.
  destruct (position_error len t a FL FT (conj L0 L1) EA (conj A1 A2) BT) as [FC EP]. rewrite <- EC in FC, EP.
  split; [exact FC|].
  destruct (directions r f (a + PI) rh (val X) (val Z) d RP) as (m & HM); try assumption; [lra|rewrite neg_cos; lra|rewrite neg_sin; lra|].
  exists m. set (y := val len) in *.
  replace (val c - (c0 + IZR m * y)) with ((val c - y * (a + PI) / (2 * PI)) + y * / (2 * PI) * (a + PI - f - IZR m * (2 * PI))) by (unfold f; field; lra).
  apply Rle_trans with (1 := Rabs_triang _ _). rewrite (Rabs_mult (y * / (2 * PI))).
  assert (IP : 0 < / (2 * PI) <= / 6) by (split; [apply Rinv_0_lt_compat; lra|apply Rinv_le_contravar; lra]).
  rewrite (Rabs_pos_eq (y * / (2 * PI))) by nra.
  assert (H2 : y * / (2 * PI) * Rabs (a + PI - f - IZR m * (2 * PI)) <= y * (d / r)).
  { rewrite Rmult_assoc. apply Rmult_le_compat_l; [lra|]. assert (0 <= d / r) by (apply Rmult_le_pos; [lra|left; apply Rinv_0_lt_compat; lra]).
    replace (4 * d / r) with (4 * (d / r)) in HM by (field; lra). pose proof (Rabs_pos (a + PI - f - IZR m * (2 * PI))). nra. }
  assert (H1 : 16 * u * y <= y * (64 * u * K / r)).
  { rewrite Rmult_comm. apply Rmult_le_compat_l; [lra|]. apply Rmult_le_reg_r with r; [exact RP|].
    replace (64 * u * K / r * r) with (64 * u * K) by (field; lra). assert (u * r <= u) by nra. assert (u <= u * K) by nra. lra. }
  replace ((128 * u * K + e) / r) with (64 * u * K / r + d / r) by (unfold d; field; lra). rewrite (Rmult_plus_distr_l y (64 * u * K / r)). lra.
Qed.

(** In the box, up to rounding. *)
Lemma axis_range : forall T avg len x, precise T ->
  (forall g : double -> double, (forall a, In a x -> finite (g a) /\ Rabs (val (g a)) <= 1) -> finite (avg (map g x))) ->
  finite len -> bpow radix2 (-100) <= val len <= bpow radix2 100 -> (forall a, In a x -> finite a /\ Rabs (val a) <= bpow radix2 20 * val len) ->
  let c := faxis_center T true avg len x in finite c /\ 0 <= val c <= val len * (1 + 4 * u).
Proof.
  intros T avg len x [HC HAT] HA FL [L0 L1] HX c. destruct two_pi_value as [F2 E2]. destruct pi_double as [F1 _]. pose proof lit_pi_range as PR.
  assert (LP : 0 < val len) by (apply Rlt_le_trans with (2 := L0); apply bpow_gt_0). pose proof u_pos as UP. pose proof u_tiny as UT.
  set (th := fun v => ddiv (dtimes two_pi v) len).
  assert (TH : forall a, In a x -> finite (th a) /\ Rabs (val (th a)) <= bpow radix2 30).
  { intros a Ha. destruct (HX a Ha) as [Fv Bv]. assert (K0 : 1 <= bpow radix2 20) by (change 1 with (bpow radix2 0); apply bpow_le; lia).
    destruct (theta_error a len _ Fv FL (conj L0 L1) (conj K0 (Rle_refl _)) Bv) as (F & E & B). split; [exact F|]. apply Rle_trans with (1 := B).
    change 8 with (bpow radix2 3). rewrite <- bpow_plus. apply bpow_le. lia. }
  pose proof (HA (fun a => t_cos T (th a))) as FX. pose proof (HA (fun a => t_sin T (th a))) as FZ.
  assert (FX' : finite (avg (map (fun a => t_cos T (th a)) x))) by (apply FX; intros a Ha; destruct (TH a Ha) as [F B]; destruct (HC _ F B) as [[[G _] B1] _]; split; assumption).
  assert (FZ' : finite (avg (map (fun a => t_sin T (th a)) x))) by (apply FZ; intros a Ha; destruct (TH a Ha) as [F B]; destruct (HC _ F B) as [_ [[G _] B1]]; split; assumption).
  set (X := avg (map (fun a => t_cos T (th a)) x)) in *. set (Z := avg (map (fun a => t_sin T (th a)) x)) in *.
  assert (EC : c = ddiv (dtimes len (dplus (t_atan2 T (Bopp Z) (Bopp X)) lit_pi)) two_pi).
  { unfold c, faxis_center. cbn [negb]. rewrite !map_map. reflexivity. }
  destruct (HAT (Bopp Z) (Bopp X) (proj1 (opp_value Z FZ')) (proj1 (opp_value X FX'))) as [[FT BT] _]. rewrite Rminus_0_r in BT.
  set (t := t_atan2 T (Bopp Z) (Bopp X)) in *. change (B2R t) with (val t) in BT. change (B2R lit_pi) with (val lit_pi) in BT. apply Rabs_le_inv in BT.
  pose proof (sum_of t lit_pi FT F1) as SO. change (B2R t) with (val t) in SO. change (B2R lit_pi) with (val lit_pi) in SO.
  set (p := val lit_pi) in *. set (y := val len) in *.
  assert (B7 : 64 <= bpow radix2 1000) by (change 64 with (bpow radix2 6); apply bpow_le; lia).
  destruct SO as [F3 E3]; [apply Rabs_le; lra|]. set (s := val (dplus t lit_pi)). change (B2R (dplus t lit_pi)) with s in E3.
  assert (MONO : forall a b, a <= b -> rnd a <= rnd b) by (intros a b H; apply round_le; [apply FLT_exp_valid; reflexivity|apply valid_rnd_N|exact H]).
  assert (R0 : rnd 0 = 0) by (apply round_0, valid_rnd_N).
  assert (S0 : 0 <= s) by (rewrite E3, <- R0; apply MONO; lra).
  assert (S1 : s <= 2 * p).
  { replace (2 * p) with (rnd (2 * p)) by (rewrite <- E2; apply rnd_double). rewrite E3. apply MONO. lra. }
  pose proof (product_of len (dplus t lit_pi) FL F3) as PO. change (B2R len) with y in PO. change (B2R (dplus t lit_pi)) with s in PO.
  assert (YS : 0 <= y * s <= 2 * p * y) by nra.
  assert (LB : 8 * y <= bpow radix2 1000) by (apply Rle_trans with (bpow radix2 3 * bpow radix2 100); [change (bpow radix2 3) with 8; lra|rewrite <- bpow_plus; apply bpow_le; lia]).
  destruct PO as [F4 E4]; [apply Rabs_le; nra|]. set (q := val (dtimes len (dplus t lit_pi))). change (B2R (dtimes len (dplus t lit_pi))) with q in E4.
  assert (T1 : bpow radix2 (-1075) <= u * y * / 8).
  { apply Rle_trans with (u * bpow radix2 (-100) * bpow radix2 (-3)); [rewrite <- !bpow_plus; apply bpow_le; lia|change (bpow radix2 (-3)) with (/ 8); nra]. }
  assert (Q0 : 0 <= q) by (rewrite E4, <- R0; apply MONO; lra).
  assert (Q1 : q <= 2 * p * y * (1 + u + u * / 8)).
  { pose proof (rnd_error (2 * p * y)) as RE. apply Rabs_le_inv in RE. rewrite Rabs_pos_eq in RE by nra.
    assert (q <= rnd (2 * p * y)) by (rewrite E4; apply MONO; lra).
    assert (0 <= u * y * / 8) by (apply Rmult_le_pos; [apply Rmult_le_pos|]; lra).
    assert (u * y * / 8 <= 2 * p * (u * y * / 8)) by (clear - H0 PR; nra). lra. }
  pose proof (quotient_of (dtimes len (dplus t lit_pi)) two_pi F4) as QO. change (B2R (dtimes len (dplus t lit_pi))) with q in QO.
  change (B2R two_pi) with (val two_pi) in QO. rewrite E2 in QO. fold p in QO. fold t in EC. rewrite <- EC in QO.
  assert (X1 : q / (2 * p) <= y * (1 + u + u * / 8)).
  { apply Rmult_le_reg_r with (2 * p); [lra|]. unfold Rdiv. rewrite Rmult_assoc, Rinv_l, Rmult_1_r by lra. lra. }
  assert (X0 : 0 <= q / (2 * p)) by (apply Rmult_le_pos; [exact Q0|left; apply Rinv_0_lt_compat; lra]).
  assert (X2 : q / (2 * p) <= 2 * y) by nra.
  destruct QO as [F5 E5]; [lra|apply Rabs_le; lra|]. split; [exact F5|]. change (B2R c) with (val c) in E5. rewrite E5. split; [rewrite <- R0; apply MONO; exact X0|].
  apply Rle_trans with (rnd (y * (1 + u + u * / 8))); [apply MONO; exact X1|].
  pose proof (rnd_error (y * (1 + u + u * / 8))) as RE. apply Rabs_le_inv in RE. rewrite Rabs_pos_eq in RE by nra. nra.
Qed.
