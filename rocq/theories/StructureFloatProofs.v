(** * StructureFloatProofs: rounded products and entries of samples *)

From Coq Require Import ZArith Reals List Bool Lia Lra Psatz Permutation.
From Flocq Require Import Core Relative BinarySingleNaN.
From Verif Require Import Base Double SpecDouble DoubleProofs DoubleError CenterFloat SpecCenter SpecCenterFloat CenterFloatSums.
From Verif Require Import Structure SpecStructure SpecStructureAll SpecError StructureProofs StructureProofs2 StructureFloat SpecStructureFloat.
Import ListNotations.
Open Scope R_scope.

Local Notation rnd := (round radix2 (FLT_exp (-1074) 53) ZnearestE).
Local Notation u := (bpow radix2 (-53)).
Local Notation eps := (bpow radix2 (-52)).
Local Notation eta := (bpow radix2 (-1075)).

(** ** Products *)

Lemma moderate_square : forall A, moderate A -> 0 < A /\ bpow radix2 (-800) <= A * A <= bpow radix2 800.
Proof.
  intros A [L U]. pose proof (bpow_gt_0 radix2 (-400)). assert (0 < A) by lra. split; [assumption|].
  change (-800)%Z with (-400 + -400)%Z. change 800%Z with (400 + 400)%Z. rewrite !bpow_plus.
  split; apply Rmult_le_compat; lra.
Qed.

Lemma eta_small : forall B, bpow radix2 (-800) <= B -> eta <= u * B / 512.
Proof.
  intros B H. pose proof (small_weaken (B / 1024)) as S. rewrite eps_u in S.
  assert (bpow radix2 (-1000) <= B / 1024).
  { apply Rle_trans with (bpow radix2 (-800) / 1024); [|unfold Rdiv; apply Rmult_le_compat_r; [lra|exact H]].
    change (bpow radix2 (-800) / 1024) with (bpow radix2 (-800) * bpow radix2 (-10)). rewrite <- bpow_plus. apply bpow_le. lia. }
  specialize (S H0). lra.
Qed.

Lemma times_close : forall x y A, finite x -> finite y -> moderate A -> Rabs (val x) <= A -> Rabs (val y) <= A ->
  finite (dtimes x y) /\ Rabs (val (dtimes x y) - val x * val y) <= u * (A * A) + eta /\ Rabs (val x * val y) <= A * A.
Proof.
  intros x y A Fx Fy HA Hx Hy. destruct (moderate_square A HA) as (A0 & AL & AU).
  assert (B : Rabs (val x * val y) <= A * A) by (rewrite Rabs_mult; apply Rmult_le_compat; auto using Rabs_pos).
  destruct (product_of x y Fx Fy) as [F E].
  { fold (val x) (val y). apply Rle_trans with (1 := B). apply Rle_trans with (1 := AU). apply bpow_le; lia. }
  split; [exact F|]. split; [|exact B]. unfold val at 1. rewrite E. fold (val x) (val y).
  apply Rle_trans with (1 := rnd_error _). apply Rplus_le_compat_r. apply Rmult_le_compat_l; [apply bpow_ge_0|exact B].
Qed.

Lemma fma_of : forall x y z, finite x -> finite y -> finite z -> Rabs (val x * val y + val z) <= bpow radix2 1000 ->
  finite (dfma x y z) /\ val (dfma x y z) = rnd (val x * val y + val z).
Proof.
  intros x y z Fx Fy Fz H. pose proof (Bfma_correct 53 1024 precision exponent mode_NE x y z Fx Fy Fz) as C. cbv zeta in C.
  change (SpecFloat.fexp 53 1024) with (FLT_exp (-1074) 53) in C. change (round_mode mode_NE) with ZnearestE in C.
  unfold val in H. rewrite (below _ H) in C. destruct C as (E & F & _). split; [exact F|exact E].
Qed.

Definition re (x y : fcomplex) : R := val (fst x) * val (fst y) - val (snd x) * val (snd y).

Definition small (A : R) (x : fcomplex) : Prop :=
  finite (fst x) /\ finite (snd x) /\ Rabs (val (fst x)) <= A /\ Rabs (val (snd x)) <= A.

Lemma opp_val : forall x : double, val (Bopp x) = - val x.
Proof. intros. apply B2R_Bopp. Qed.
Lemma opp_finite : forall x : double, finite x -> finite (Bopp x).
Proof. intros x H. unfold finite. rewrite is_finite_Bopp. exact H. Qed.

Lemma big_enough : forall B, B <= bpow radix2 800 -> 4 * B <= bpow radix2 1000.
Proof.
  intros B H. apply Rle_trans with (bpow radix2 2 * bpow radix2 800); [change (bpow radix2 2) with 4; lra|].
  rewrite <- bpow_plus. apply bpow_le. lia.
Qed.

(** The result is the rounding of a number near the exact product; it does not get negative by
    rounding. *)
Lemma product_rounds : forall P x y A, product P -> moderate A -> small A x -> small A y ->
  exists w, finite (P x y) /\ val (P x y) = rnd w /\ Rabs (w - re x y) <= 2 * (u * (A * A) + eta) /\
    (0 <= val (fst x) * val (fst y) -> val (snd x) * val (snd y) <= 0 -> 0 <= w).
Proof.
  intros P x y A HP HA (F1 & F2 & B1 & B2) (G1 & G2 & C1 & C2). destruct (moderate_square A HA) as (A0 & AL & AU).
  destruct (times_close _ _ A F1 G1 HA B1 C1) as (Fs & Es & Bs). destruct (times_close _ _ A F2 G2 HA B2 C2) as (Ft & Et & Bt).
  pose proof (eta_small _ AL) as EL. pose proof u_pos as U0. pose proof u_small as US. pose proof (bpow_gt_0 radix2 (-1075)) as N0.
  set (s := dtimes (fst x) (fst y)) in *. set (t := dtimes (snd x) (snd y)) in *.
  set (a := val (fst x) * val (fst y)) in *. set (b := val (snd x) * val (snd y)) in *.
  pose proof (big_enough _ AU) as BE.
  assert (SM : u * (A * A) + eta <= A * A / 4) by nra.
  assert (PS : 0 <= a -> 0 <= val s).
  { intro H. assert (E : val s = rnd a).
    { destruct (product_of (fst x) (fst y) F1 G1) as [_ E]; [fold (val (fst x)) (val (fst y)) a; lra|exact E]. }
    rewrite E. apply round_ge_generic; [apply FLT_exp_valid; reflexivity|apply valid_rnd_N|apply generic_format_0|exact H]. }
  assert (PT : b <= 0 -> val t <= 0).
  { intro H. assert (E : val t = rnd b).
    { destruct (product_of (snd x) (snd y) F2 G2) as [_ E]; [fold (val (snd x)) (val (snd y)) b; lra|exact E]. }
    rewrite E. apply round_le_generic; [apply FLT_exp_valid; reflexivity|apply valid_rnd_N|apply generic_format_0|exact H]. }
  apply Rabs_le_inv in Es. apply Rabs_le_inv in Et. apply Rabs_le_inv in Bs. apply Rabs_le_inv in Bt.
  destruct (HP x y) as [E|[E|E]]; rewrite E; unfold re; fold a b.
  - exists (val s - val t). unfold plain_product. fold s t. destruct (difference_of s t Fs Ft) as [F V].
    { fold (val s) (val t). apply Rabs_le. lra. }
    split; [exact F|]. split; [exact V|]. split; [apply Rabs_le; lra|]. intros; specialize (PS H); specialize (PT H0); lra.
  - exists (a + - val t). unfold fused_left. fold t. destruct (fma_of (fst x) (fst y) (Bopp t) F1 G1 (opp_finite _ Ft)) as [F V].
    { rewrite opp_val. fold a. apply Rabs_le. lra. }
    rewrite opp_val in V. fold a in V. split; [exact F|]. split; [exact V|]. split; [apply Rabs_le; lra|]. intros; specialize (PT H0); lra.
  - exists (- b + val s). unfold fused_right. fold s. destruct (fma_of (Bopp (snd x)) (snd y) s (opp_finite _ F2) G2 Fs) as [F V].
    { rewrite opp_val. replace (- val (snd x) * val (snd y)) with (- b) by (unfold b; ring). apply Rabs_le. lra. }
    rewrite opp_val in V. replace (- val (snd x) * val (snd y)) with (- b) in V by (unfold b; ring).
    split; [exact F|]. split; [exact V|]. split; [apply Rabs_le; lra|]. intros; specialize (PS H); lra.
Qed.

Lemma product_error : forall P x y A, product P -> moderate A -> small A x -> small A y ->
  finite (P x y) /\ Rabs (val (P x y) - re x y) <= 3 * eps * (A * A).
Proof.
  intros P x y A HP HA Hx Hy. destruct (product_rounds P x y A HP HA Hx Hy) as (w & F & V & W & _).
  split; [exact F|]. rewrite V. destruct (moderate_square A HA) as (A0 & AL & AU).
  assert (RB : Rabs (re x y) <= 2 * (A * A)).
  { destruct Hx as (_ & _ & B1 & B2). destruct Hy as (_ & _ & C1 & C2). unfold re. unfold Rminus. apply Rle_trans with (1 := Rabs_triang _ _).
    rewrite Rabs_Ropp, !Rabs_mult.
    assert (Rabs (val (fst x)) * Rabs (val (fst y)) <= A * A) by (apply Rmult_le_compat; auto using Rabs_pos).
    assert (Rabs (val (snd x)) * Rabs (val (snd y)) <= A * A) by (apply Rmult_le_compat; auto using Rabs_pos). lra. }
  pose proof (eta_small _ AL) as EL. pose proof u_pos as U0. pose proof u_small as US. pose proof (bpow_gt_0 radix2 (-1075)) as N0.
  pose proof (rnd_error w) as RE.
  assert (WB : Rabs w <= 2 * (A * A) + 2 * (u * (A * A) + eta)).
  { replace w with ((w - re x y) + re x y) by ring. apply Rle_trans with (1 := Rabs_triang _ _). lra. }
  replace (rnd w - re x y) with ((rnd w - w) + (w - re x y)) by ring. apply Rle_trans with (1 := Rabs_triang _ _).
  assert (u * Rabs w <= u * (3 * (A * A))). { apply Rmult_le_compat_l; [lra|]. apply Rle_trans with (1 := WB). nra. }
  rewrite eps_u. assert (0 < A * A) by nra.
  assert (UA : 0 < u * (A * A)) by nra. lra.
Qed.

Lemma product_nonneg : forall P x y A, product P -> moderate A -> small A x -> small A y ->
  0 <= val (fst x) * val (fst y) -> val (snd x) * val (snd y) <= 0 -> 0 <= val (P x y).
Proof.
  intros P x y A HP HA Hx Hy H1 H2. destruct (product_rounds P x y A HP HA Hx Hy) as (w & F & V & _ & N).
  rewrite V. apply round_ge_generic; [apply FLT_exp_valid; reflexivity|apply valid_rnd_N|apply generic_format_0|auto].
Qed.

(** ** One entry *)

(** [x] approximates the Fourier component [C - i S], [y] the opposite one. *)
Lemma entry_error : forall P x y A d C S, product P -> moderate A -> 0 <= d -> Rabs C + d <= A -> Rabs S + d <= A ->
  right_up_to d C (fst x) -> right_up_to d (- S) (snd x) -> right_up_to d C (fst y) -> right_up_to d S (snd y) ->
  finite (P x y) /\ Rabs (val (P x y) - (C ^ 2 + S ^ 2)) <= 4 * A * d + 3 * eps * (A * A).
Proof.
  intros P x y A d C S HP HA Hd HC HS [F1 E1] [F2 E2] [G1 D1] [G2 D2]. fold (val (fst x)) in E1. fold (val (snd x)) in E2.
  fold (val (fst y)) in D1. fold (val (snd y)) in D2.
  assert (B : forall v c, Rabs (v - c) <= d -> Rabs c + d <= A -> Rabs v <= A).
  { intros v c H1 H2. replace v with ((v - c) + c) by ring. apply Rle_trans with (1 := Rabs_triang _ _). lra. }
  assert (HS' : Rabs (- S) + d <= A) by (rewrite Rabs_Ropp; exact HS).
  assert (Sx : small A x) by (split; [exact F1|split; [exact F2|split; eapply B; eassumption]]).
  assert (Sy : small A y) by (split; [exact G1|split; [exact G2|split; eapply B; eassumption]]).
  destruct (product_error P x y A HP HA Sx Sy) as [F E]. split; [exact F|].
  replace (val (P x y) - (C ^ 2 + S ^ 2)) with ((val (P x y) - re x y) + (re x y - (C ^ 2 + S ^ 2))) by ring.
  apply Rle_trans with (1 := Rabs_triang _ _). cut (Rabs (re x y - (C ^ 2 + S ^ 2)) <= 4 * A * d); [lra|].
  assert (M : forall v w c e, Rabs (v - c) <= d -> Rabs (w - e) <= d -> Rabs v <= A -> Rabs e + d <= A -> Rabs (v * w - c * e) <= 2 * A * d).
  { intros v w c e H1 H2 H3 H4. replace (v * w - c * e) with (v * (w - e) + e * (v - c)) by ring. apply Rle_trans with (1 := Rabs_triang _ _).
    rewrite !Rabs_mult. assert (Rabs v * Rabs (w - e) <= A * d) by (apply Rmult_le_compat; auto using Rabs_pos).
    assert (Rabs e * Rabs (v - c) <= A * d) by (apply Rmult_le_compat; auto using Rabs_pos; lra). lra. }
  destruct Sx as (_ & _ & B1 & B2).
  pose proof (M _ _ _ _ E1 D1 B1 HC) as M1. pose proof (M _ _ _ _ E2 D2 B2 HS) as M2.
  unfold re. replace (val (fst x) * val (fst y) - val (snd x) * val (snd y) - (C ^ 2 + S ^ 2))
    with ((val (fst x) * val (fst y) - C * C) + - (val (snd x) * val (snd y) - - S * S)) by ring.
  apply Rle_trans with (1 := Rabs_triang _ _). rewrite Rabs_Ropp. lra.
Qed.

(** Divided by the number of points. *)
Lemma divided_error : forall p b A E size, finite p -> moderate A -> Rabs (val p - b) <= E -> Rabs b <= 2 * (A * A) -> E <= 6 * (A * A) ->
  (1 <= size <= 2 ^ 50)%Z ->
  finite (ddiv p (dz size)) /\ Rabs (val (ddiv p (dz size)) - b / IZR size) <= (E + 12 * eps * (A * A)) / IZR size /\
  Rabs (val (ddiv p (dz size))) <= 9 * (A * A) / IZR size.
Proof.
  intros p b A E size Fp HA HE HB EB Hs. destruct (moderate_square A HA) as (A0 & AL & AU).
  destruct (dz_value size) as [Fz Vz]; [lia|]. assert (S1 : 1 <= IZR size) by (apply IZR_le; lia).
  assert (S2 : IZR size <= bpow radix2 50) by (change (bpow radix2 50) with (IZR (2 ^ 50)); apply IZR_le; lia).
  assert (I0 : 0 < / IZR size) by (apply Rinv_0_lt_compat; lra).
  assert (I1 : / IZR size <= 1) by (rewrite <- Rinv_1; apply Rinv_le; lra).
  assert (I2 : bpow radix2 (-50) <= / IZR size) by (change (-50)%Z with (- (50))%Z; rewrite bpow_opp; apply Rinv_le; lra).
  assert (A2 : 0 < A * A) by nra.
  assert (DV : val p / val (dz size) - b / IZR size = (val p - b) * / IZR size) by (rewrite Vz; unfold Rdiv; ring).
  assert (DE : Rabs (val p / val (dz size) - b / IZR size) <= E / IZR size).
  { rewrite DV, Rabs_mult, (Rabs_pos_eq (/ IZR size)) by lra. apply Rmult_le_compat_r; lra. }
  assert (BE : Rabs (b / IZR size) <= 2 * (A * A) / IZR size).
  { unfold Rdiv. rewrite Rabs_mult, (Rabs_pos_eq (/ IZR size)) by lra. apply Rmult_le_compat_r; lra. }
  assert (E6 : E / IZR size <= 6 * (A * A) / IZR size) by (apply Rmult_le_compat_r; lra).
  assert (Q2 : 2 * (A * A) / IZR size <= 6 * (A * A) / IZR size) by (apply Rmult_le_compat_r; lra).
  destruct (quotient_error p (dz size) (b / IZR size) (6 * (A * A) / IZR size) Fp) as [F G].
  - rewrite Vz. lra.
  - split.
    + apply Rle_trans with (bpow radix2 (-800) * bpow radix2 (-50)); [rewrite <- bpow_plus; apply bpow_le; lia|].
      apply Rmult_le_compat; try apply bpow_ge_0; lra.
    + apply Rle_trans with (6 * (A * A)); [unfold Rdiv; rewrite <- (Rmult_1_r (6 * (A * A))) at 2; apply Rmult_le_compat_l; lra|].
      apply Rle_trans with (bpow radix2 3 * bpow radix2 800); [change (bpow radix2 3) with 8; nra|rewrite <- bpow_plus; apply bpow_le; lia].
  - lra.
  - lra.
  - split; [exact F|].
    assert (EP : 2 * eps * (6 * (A * A) / IZR size) = 12 * eps * (A * A) / IZR size) by (unfold Rdiv; ring).
    assert (SP : (E + 12 * eps * (A * A)) / IZR size = E / IZR size + 12 * eps * (A * A) / IZR size) by (unfold Rdiv; ring).
    split; [rewrite SP; lra|].
    replace (val (ddiv p (dz size))) with ((val (ddiv p (dz size)) - b / IZR size) + b / IZR size) by ring.
    apply Rle_trans with (1 := Rabs_triang _ _).
    assert (12 * eps * (A * A) <= A * A) by (rewrite eps_u; pose proof u_small; pose proof u_pos; nra).
    assert (12 * eps * (A * A) / IZR size <= (A * A) / IZR size) by (apply Rmult_le_compat_r; lra).
    assert (6 * (A * A) / IZR size + (A * A) / IZR size + 2 * (A * A) / IZR size = 9 * (A * A) / IZR size) by (unfold Rdiv; ring).
    lra.
Qed.

(** ** Averages over samples *)

Definition in_order : trig := mktrig (fun x => x) (fun x => x) (fun x _ => x) (fun l => fold_left dplus l dzero).

Lemma fold_adds : forall l l0 x, adds l0 x -> adds (l0 ++ l) (fold_left dplus l x).
Proof.
  induction l as [|y l IH]; intros l0 x H; [rewrite app_nil_r; exact H|]. cbn [fold_left].
  replace (l0 ++ y :: l) with ((l0 ++ [y]) ++ l) by (rewrite <- app_assoc; reflexivity). apply IH.
  apply (adds_both l0 [y] _ x y H (adds_one y)). apply Permutation_refl.
Qed.

Lemma in_order_sums : sums in_order.
Proof. intro l. apply (fold_adds l [] dzero adds_none). Qed.

Lemma averages : forall {T} (x : T -> double) (b : T -> R) l e M, l <> [] -> (lenZ l <= 2 ^ 50)%Z ->
  bpow radix2 (-1000) <= M <= bpow radix2 800 ->
  (forall s, In s l -> finite (x s) /\ Rabs (val (x s)) <= M /\ Rabs (val (x s) - b s) <= e) ->
  finite (ddiv (fold_left dplus (map x l) dzero) (dz (lenZ l))) /\
  Rabs (val (ddiv (fold_left dplus (map x l) dzero) (dz (lenZ l))) - average b l) <= e + (INR (length l) + 2) * eps * M.
Proof.
  intros T x b l e M HN HL HM H. destruct (nonempty l HN) as [N1 _].
  destruct (mean_error in_order (map x l) M in_order_sums) as [F E].
  - destruct l; [congruence|discriminate].
  - apply Forall_forall. intros v Hv. apply in_map_iff in Hv. destruct Hv as (s & <- & Hs). apply (H s Hs).
  - unfold lenZ. rewrite map_length. exact HL.
  - exact HM.
  - intros v Hv. apply in_map_iff in Hv. destruct Hv as (s & <- & Hs). apply (H s Hs).
  - unfold fmean_of in *. cbn [t_sum in_order] in *. unfold lenZ in *. rewrite map_length in *. split; [exact F|].
    match goal with |- Rabs (?v - _) <= _ => set (V := v) in * end.
    assert (D : Rabs (total val (map x l) / INR (length l) - average b l) <= e).
    { unfold average. replace (total val (map x l) / INR (length l) - fold_right Rplus 0 (map b l) / INR (length l))
        with ((total val (map x l) - fold_right Rplus 0 (map b l)) * / INR (length l)) by (unfold Rdiv; ring).
      rewrite Rabs_mult, Rabs_inv, (Rabs_pos_eq (INR _)) by lra. apply Rmult_le_reg_r with (INR (length l)); [lra|].
      rewrite Rmult_assoc, Rinv_l, Rmult_1_r by lra.
      assert (G : forall t, (forall s, In s t -> In s l) -> Rabs (total val (map x t) - fold_right Rplus 0 (map b t)) <= e * INR (length t)).
      { clear -H. induction t as [|s t IH]; intros I; [cbn; rewrite Rminus_0_r, Rabs_R0; lra|].
        cbn [map total fold_right]. change (length (s :: t)) with (S (length t)). rewrite S_INR.
        replace (val (x s) + total val (map x t) - (b s + fold_right Rplus 0 (map b t)))
          with ((val (x s) - b s) + (total val (map x t) - fold_right Rplus 0 (map b t))) by ring.
        apply Rle_trans with (1 := Rabs_triang _ _). destruct (H s) as (_ & _ & Q); [apply I; now left|].
        assert (forall s', In s' t -> In s' l) by (intros; apply I; now right). specialize (IH H0). lra. }
      apply G. auto. }
    replace (V - average b l) with ((V - total val (map x l) / INR (length l)) + (total val (map x l) / INR (length l) - average b l)) by ring.
    apply Rle_trans with (1 := Rabs_triang _ _). lra.
Qed.
