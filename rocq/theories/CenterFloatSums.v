(** * CenterFloatSums: averages of IEEE 754 numbers in any order *)

From Coq Require Import ZArith Reals List Bool Lia Lra Psatz Permutation.
From Flocq Require Import Core Relative BinarySingleNaN.
From Verif Require Import Base Center SpecCenter CenterProofs Double SpecDouble DoubleProofs DoubleError CenterFloat SpecCenterFloat.
Import ListNotations.
Open Scope R_scope.

Local Notation rnd := (round radix2 (FLT_exp (-1074) 53) ZnearestE).
Local Notation u := (bpow radix2 (-53)).
Local Notation eps := (bpow radix2 (-52)).

Definition val (x : double) : R := B2R x.
Definition finite (x : double) : Prop := is_finite x = true.

Lemma total_abs : forall {A} (f : A -> R) l, Rabs (total f l) <= total (fun a => Rabs (f a)) l.
Proof.
  intros A f l. induction l as [|a l IH]; cbn [total]; [rewrite Rabs_R0; lra|].
  apply Rle_trans with (1 := Rabs_triang _ _). lra.
Qed.

Lemma length_real : forall {A} (l : list A), (lenZ l <= 2 ^ 50)%Z -> INR (length l) * eps <= / 4.
Proof.
  intros A l H. unfold lenZ in H. rewrite INR_IZR_INZ. replace (/ 4) with (IZR (2 ^ 50) * eps).
  - apply Rmult_le_compat_r; [apply bpow_ge_0|]. apply IZR_le. exact H.
  - rewrite IZR_pow by lia. rewrite <- bpow_plus. reflexivity.
Qed.

Lemma huge : forall x, x <= bpow radix2 900 -> 2 * x <= bpow radix2 1000.
Proof.
  intros x H. apply Rle_trans with (2 * bpow radix2 900); [lra|].
  apply Rle_trans with (bpow radix2 (1 + 900)); [rewrite bpow_plus; change (bpow radix2 1) with 2; lra|apply bpow_le; lia].
Qed.

(** A sum in any order. *)
Lemma adds_error : forall l x, adds l x -> Forall finite l -> (lenZ l <= 2 ^ 50)%Z ->
  total (fun v => Rabs (val v)) l <= bpow radix2 900 ->
  finite x /\ Rabs (val x - total val l) <= INR (length l) * eps * total (fun v => Rabs (val v)) l.
Proof.
  intros l x H. induction H as [|x|l1 l2 l x y H1 IH1 H2 IH2 HP]; intros HF HL HB.
  - split; [reflexivity|]. cbn. rewrite Rminus_0_r, Rabs_R0. lra.
  - inversion HF; subst. split; [assumption|]. cbn [total length INR]. replace (val x - (val x + 0)) with 0 by ring.
    rewrite Rabs_R0. pose proof (Rabs_pos (val x)). pose proof (bpow_gt_0 radix2 (-52)). nra.
  - assert (HL' : lenZ l = (lenZ l1 + lenZ l2)%Z) by (unfold lenZ; rewrite (Permutation_length HP), app_length; lia).
    assert (HN : INR (length l) = INR (length l1) + INR (length l2)) by (rewrite (Permutation_length HP), app_length, plus_INR; reflexivity).
    rewrite (total_perm (fun v => Rabs (val v)) _ _ HP), total_app in HB.
    rewrite (total_perm (fun v => Rabs (val v)) _ _ HP), (total_perm val _ _ HP), !total_app.
    rewrite HN. pose proof (length_real l HL) as HE. rewrite HN in HE.
    assert (HF' : Forall finite (l1 ++ l2)) by (apply Forall_forall; intros v Hv; apply (proj1 (Forall_forall _ _) HF); apply Permutation_in with (2 := Hv); apply Permutation_sym; exact HP).
    apply Forall_app in HF'. destruct HF' as [F1 F2].
    set (A := total (fun v => Rabs (val v)) l1) in *. set (B := total (fun v => Rabs (val v)) l2) in *.
    assert (HA : 0 <= A) by (apply total_nonneg; intros; apply Rabs_pos).
    assert (HBp : 0 <= B) by (apply total_nonneg; intros; apply Rabs_pos).
    assert (L0 : (0 <= lenZ l1)%Z /\ (0 <= lenZ l2)%Z) by (unfold lenZ; lia).
    destruct (IH1 F1) as [Fx Ex]; [lia|fold A; lra|]. destruct (IH2 F2) as [Fy Ey]; [lia|fold B; lra|]. fold A in Ex. fold B in Ey.
    pose proof (total_abs val l1) as TA. fold A in TA. pose proof (total_abs val l2) as TB. fold B in TB.
    set (X := total val l1) in *. set (Y := total val l2) in *.
    pose proof (pos_INR (length l1)) as P1. pose proof (pos_INR (length l2)) as P2. pose proof (bpow_gt_0 radix2 (-52)) as PE.
    assert (K1 : INR (length l1) * eps * A <= / 4 * A) by (apply Rmult_le_compat_r; [lra|]; nra).
    assert (K2 : INR (length l2) * eps * B <= / 4 * B) by (apply Rmult_le_compat_r; [lra|]; nra).
    assert (SX : Rabs (val x) <= 2 * A) by (replace (val x) with ((val x - X) + X) by ring; apply Rle_trans with (1 := Rabs_triang _ _); lra).
    assert (SY : Rabs (val y) <= 2 * B) by (replace (val y) with ((val y - Y) + Y) by ring; apply Rle_trans with (1 := Rabs_triang _ _); lra).
    assert (SS : Rabs (val x + val y) <= 2 * (A + B)) by (apply Rle_trans with (1 := Rabs_triang _ _); lra).
    pose proof (huge _ HB) as HH.
    destruct (sum_of x y Fx Fy) as [FS ES]; [fold (val x) (val y); lra|]. split; [exact FS|].
    unfold val at 1. rewrite ES. fold (val x) (val y).
    destruct (Nat.eq_dec (length l1) 0) as [Z1|N1]; [|destruct (Nat.eq_dec (length l2) 0) as [Z2|N2]].
    + rewrite Z1 in *. cbn [INR] in *. rewrite !Rmult_0_l in Ex. assert (Ex0 : val x - X = 0) by (apply Rabs_eq_R0; pose proof (Rabs_pos (val x - X)); lra).
      assert (X0 : X = 0) by (destruct l1; [reflexivity|discriminate]). assert (A0 : A = 0) by (destruct l1; [reflexivity|discriminate]).
      replace (val x) with 0 by lra. rewrite Rplus_0_l. unfold val at 1. rewrite rnd_double. fold (val y). rewrite X0, A0, !Rplus_0_l. exact Ey.
    + rewrite Z2 in *. cbn [INR] in *. rewrite !Rmult_0_l in Ey. assert (Ey0 : val y - Y = 0) by (apply Rabs_eq_R0; pose proof (Rabs_pos (val y - Y)); lra).
      assert (Y0 : Y = 0) by (destruct l2; [reflexivity|discriminate]). assert (B0 : B = 0) by (destruct l2; [reflexivity|discriminate]).
      replace (val y) with 0 by lra. rewrite Rplus_0_r. unfold val at 1. rewrite rnd_double. fold (val x). rewrite Y0, B0, !Rplus_0_r. exact Ex.
    + assert (Q1 : 1 <= INR (length l1)) by (change 1 with (INR 1); apply le_INR; lia).
      assert (Q2 : 1 <= INR (length l2)) by (change 1 with (INR 1); apply le_INR; lia).
      pose proof (plus_error x y) as PL. fold (val x) (val y) in PL.
      replace (rnd (val x + val y) - (X + Y)) with ((rnd (val x + val y) - (val x + val y)) + ((val x - X) + (val y - Y))) by ring.
      apply Rle_trans with (1 := Rabs_triang _ _). pose proof (Rabs_triang (val x - X) (val y - Y)) as TT.
      assert (PL2 : Rabs (rnd (val x + val y) - (val x + val y)) <= eps * (A + B)).
      { apply Rle_trans with (1 := PL). rewrite eps_u. pose proof u_pos. nra. }
      assert (INR (length l1) * eps * A + INR (length l2) * eps * B + eps * (A + B) <= (INR (length l1) + INR (length l2)) * eps * (A + B)).
      { assert (0 <= eps * A) by nra. assert (0 <= eps * B) by nra.
        assert (eps * B <= INR (length l1) * (eps * B)) by nra. assert (eps * A <= INR (length l2) * (eps * A)) by nra. nra. }
      lra.
Qed.

(** ** The mean *)

Lemma small_weaken : forall M, bpow radix2 (-1000) <= M -> bpow radix2 (-1075) <= eps * M.
Proof.
  intros M H. apply Rle_trans with (eps * bpow radix2 (-1000)); [rewrite <- bpow_plus; apply bpow_le; lia|].
  apply Rmult_le_compat_l; [apply bpow_ge_0|exact H].
Qed.

Lemma total_bound : forall {A} (f : A -> R) l M, (forall a, In a l -> Rabs (f a) <= M) -> total (fun a => Rabs (f a)) l <= INR (length l) * M.
Proof.
  intros A f l M H. induction l as [|a l IH]; [cbn; lra|]. cbn [total]. rewrite (S_INR (length l) : INR (length (a :: l)) = _).
  pose proof (H a (or_introl eq_refl)). assert (total (fun a => Rabs (f a)) l <= INR (length l) * M) by (apply IH; intros; apply H; right; assumption). lra.
Qed.

Lemma dz_value : forall z, (Z.abs z <= 2 ^ 53)%Z -> finite (dz z) /\ val (dz z) = IZR z.
Proof. intros z H. destruct (exactly_value _ _ _ (exactly_dz z H)) as [F E]. split; [exact F|]. unfold val. rewrite E. apply Q2R_zq. Qed.

Lemma nonempty : forall {A} (l : list A), l <> [] -> 1 <= INR (length l) /\ (1 <= lenZ l)%Z.
Proof. intros A l H. destruct l as [|a l]; [congruence|]. split; [change 1 with (INR 1); apply le_INR; cbn; lia|unfold lenZ; cbn; lia]. Qed.

(** A quotient of moderate size. *)
Lemma quotient_error : forall x y b M, finite x -> val y <> 0 -> bpow radix2 (-1000) <= M <= bpow radix2 900 ->
  Rabs (val x / val y - b) <= M -> Rabs b <= M ->
  finite (ddiv x y) /\ Rabs (val (ddiv x y) - b) <= Rabs (val x / val y - b) + 2 * eps * M.
Proof.
  intros x y b M Fx Ny [ML MU] HD Hb. set (q := val x / val y) in *.
  assert (Q : Rabs q <= 2 * M) by (replace q with ((q - b) + b) by ring; apply Rle_trans with (1 := Rabs_triang _ _); lra).
  destruct (quotient_of x y Fx Ny) as [F E].
  { fold (val x) (val y) q. apply Rle_trans with (1 := Q). apply huge. exact MU. }
  split; [exact F|]. unfold val at 1. rewrite E. fold (val x) (val y) q.
  replace (rnd q - b) with ((rnd q - q) + (q - b)) by ring. apply Rle_trans with (1 := Rabs_triang _ _).
  pose proof (rnd_error q) as R. pose proof (small_weaken M ML). pose proof u_pos. rewrite eps_u in *.
  assert (u * Rabs q <= u * (2 * M)) by (apply Rmult_le_compat_l; lra). lra.
Qed.

Lemma mean_error : forall T l M, sums T -> l <> [] -> Forall finite l -> (lenZ l <= 2 ^ 50)%Z ->
  bpow radix2 (-1000) <= M <= bpow radix2 800 -> (forall v, In v l -> Rabs (val v) <= M) ->
  finite (fmean_of T l) /\ Rabs (val (fmean_of T l) - total val l / INR (length l)) <= (INR (length l) + 2) * eps * M.
Proof.
  intros T l M HT HN HF HL [ML MU] HM. destruct (nonempty l HN) as [N1 N1z]. pose proof (length_real l HL) as NE.
  pose proof (total_bound val l M HM) as TB. assert (M0 : 0 < M) by (apply Rlt_le_trans with (2 := ML); apply bpow_gt_0).
  assert (NU : INR (length l) <= bpow radix2 50) by (rewrite INR_IZR_INZ; change (bpow radix2 50) with (IZR (2 ^ 50)); apply IZR_le; exact HL).
  destruct (adds_error l (t_sum T l) (HT l) HF HL) as [FS ES].
  { apply Rle_trans with (1 := TB). apply Rle_trans with (bpow radix2 50 * bpow radix2 800); [|rewrite <- bpow_plus; apply bpow_le; lia].
    apply Rmult_le_compat; lra. }
  set (S := total val l) in *. set (n := INR (length l)) in *.
  assert (E : val (dz (lenZ l)) = n).
  { unfold n. rewrite INR_IZR_INZ. apply dz_value. unfold lenZ in *. lia. }
  assert (BA : Rabs S <= n * M) by (apply Rle_trans with (1 := total_abs val l); exact TB).
  assert (BB : Rabs (S / n) <= M).
  { unfold Rdiv. rewrite Rabs_mult, (Rabs_inv n). rewrite (Rabs_pos_eq n) by lra. apply Rmult_le_reg_r with n; [lra|]. rewrite Rmult_assoc, Rinv_l by lra. lra. }
  assert (QQ : Rabs (val (t_sum T l) / n - S / n) <= n * eps * M).
  { replace (val (t_sum T l) / n - S / n) with ((val (t_sum T l) - S) * / n) by (field; lra). rewrite Rabs_mult, (Rabs_inv n), (Rabs_pos_eq n) by lra.
    apply Rmult_le_reg_r with n; [lra|]. rewrite Rmult_assoc, Rinv_l by lra. rewrite Rmult_1_r. apply Rle_trans with (1 := ES).
    pose proof (bpow_gt_0 radix2 (-52)). apply Rle_trans with (n * eps * (n * M)); [apply Rmult_le_compat_l; [nra|exact TB]|]. nra. }
  assert (NM : n * eps * M <= M) by nra.
  destruct (quotient_error (t_sum T l) (dz (lenZ l)) (S / n) M FS) as [F G].
  - rewrite E. lra.
  - split; [exact ML|]. apply Rle_trans with (1 := MU). apply bpow_le; lia.
  - rewrite E. lra.
  - exact BB.
  - split; [exact F|]. unfold fmean_of. rewrite E in G. lra.
Qed.

(** ** The weighted average *)

Lemma dmap2_masses : forall {A} (f g : A -> double) l, dmap2 dtimes (map f l) (map g l) = map (fun a => dtimes (f a) (g a)) l.
Proof. intros A f g l. induction l as [|a l IH]; [reflexivity|]. cbn [map dmap2]. rewrite IH. reflexivity. Qed.

Lemma total_diff : forall {A} (f g : A -> R) (h : A -> R) l, (forall a, In a l -> Rabs (f a - g a) <= h a) -> Rabs (total f l - total g l) <= total h l.
Proof.
  intros A f g h l H. induction l as [|a l IH]; [cbn; rewrite Rminus_0_r, Rabs_R0; lra|]. cbn [total].
  replace (f a + total f l - (g a + total g l)) with ((f a - g a) + (total f l - total g l)) by ring.
  apply Rle_trans with (1 := Rabs_triang _ _). pose proof (H a (or_introl eq_refl)).
  assert (Rabs (total f l - total g l) <= total h l) by (apply IH; intros; apply H; right; assumption). lra.
Qed.

Definition wt (m : double * double) : R := val (snd m).

Lemma average_error : forall T (l : list (double * double)) M, sums T -> Forall (fun m => finite (fst m) /\ weight (snd m)) l -> (lenZ l <= 2 ^ 40)%Z ->
  0 < total wt l -> bpow radix2 (-400) <= M <= bpow radix2 400 -> (forall m, In m l -> Rabs (val (fst m)) <= M) ->
  finite (faverage_of T (map snd l) (map fst l)) /\
  Rabs (val (faverage_of T (map snd l) (map fst l)) - total (fun m => wt m * val (fst m)) l / total wt l) <= (3 * INR (length l) + 5) * eps * M.
Proof.
  intros T l M HT HF HL HW [ML MU] HM. unfold faverage_of. rewrite dmap2_masses.
  assert (M0 : 0 < M) by (apply Rlt_le_trans with (2 := ML); apply bpow_gt_0). pose proof (bpow_gt_0 radix2 (-52)) as PE.
  assert (N0 : l <> []) by (intros ->; cbn in HW; lra). destruct (nonempty l N0) as [N1 _].
  assert (HL5 : (lenZ l <= 2 ^ 50)%Z) by lia. pose proof (length_real l HL5) as NE.
  assert (NU : INR (length l) <= bpow radix2 40) by (rewrite INR_IZR_INZ; change (bpow radix2 40) with (IZR (2 ^ 40)); apply IZR_le; exact HL).
  set (n := INR (length l)) in *. set (W := total wt l) in *.
  assert (WP : forall m, In m l -> 0 <= wt m <= bpow radix2 400 /\ (wt m = 0 \/ bpow radix2 (-400) <= wt m)).
  { intros m Hm. destruct (proj1 (Forall_forall _ _) HF m Hm) as [_ [_ [E|[E1 E2]]]]; fold (val (snd m)) in *; fold (wt m) in *.
    - rewrite E. split; [|left; reflexivity]. split; [lra|apply bpow_ge_0].
    - split; [|right; exact E1]. split; [|exact E2]. apply Rle_trans with (2 := E1). apply bpow_ge_0. }
  assert (WB : W <= bpow radix2 440).
  { unfold W. rewrite (total_ext wt (fun m => Rabs (wt m))) by (intros m Hm; symmetry; apply Rabs_pos_eq; apply (proj1 (WP m Hm))).
    apply Rle_trans with (n * bpow radix2 400).
    - apply total_bound. intros m Hm. rewrite Rabs_pos_eq by apply (proj1 (WP m Hm)). apply (proj1 (WP m Hm)).
    - apply Rle_trans with (bpow radix2 40 * bpow radix2 400); [apply Rmult_le_compat_r; [apply bpow_ge_0|exact NU]|rewrite <- bpow_plus; apply bpow_le; lia]. }
  (* the denominator *)
  assert (HS : forall f : double * double -> double, INR (length (map f l)) = n /\ lenZ (map f l) = lenZ l) by (intros f; unfold n, lenZ; rewrite map_length; split; reflexivity).
  destruct (adds_error (map snd l) (t_sum T (map snd l)) (HT _)) as [FD ED].
  { apply Forall_forall. intros x Hx. apply in_map_iff in Hx. destruct Hx as (m & <- & Hm). apply (proj1 (Forall_forall _ _) HF m Hm). }
  { rewrite (proj2 (HS snd)). exact HL5. }
  { rewrite total_map. rewrite (total_ext _ wt) by (intros m Hm; apply Rabs_pos_eq; apply (proj1 (WP m Hm))). fold W. apply Rle_trans with (1 := WB). apply bpow_le. lia. }
  rewrite (proj1 (HS snd)), !total_map in ED. rewrite (total_ext (fun a => Rabs (val (snd a))) wt) in ED by (intros m Hm; apply Rabs_pos_eq; apply (proj1 (WP m Hm))).
  fold wt in ED. change (total (fun a => val (snd a)) l) with W in ED. fold W in ED.
  (* the products *)
  set (t := fun m : double * double => dtimes (fst m) (snd m)) in *.
  assert (PT : forall m, In m l -> finite (t m) /\ Rabs (val (t m) - wt m * val (fst m)) <= eps * M * wt m).
  { intros m Hm. destruct (proj1 (Forall_forall _ _) HF m Hm) as [F1 [F2 _]]. destruct (WP m Hm) as [[W0 W1] W2]. pose proof (HM m Hm) as VM.
    assert (PB : Rabs (val (fst m) * val (snd m)) <= M * wt m).
    { rewrite Rabs_mult. fold (wt m). rewrite (Rabs_pos_eq (wt m)) by exact W0. apply Rmult_le_compat_r; assumption. }
    destruct (product_of (fst m) (snd m) F1 F2) as [F E].
    { fold (val (fst m)) (val (snd m)). apply Rle_trans with (1 := PB). apply Rle_trans with (bpow radix2 400 * bpow radix2 400); [apply Rmult_le_compat; lra|rewrite <- bpow_plus; apply bpow_le; lia]. }
    split; [exact F|]. unfold t, val at 1. rewrite E. fold (val (fst m)) (val (snd m)). destruct W2 as [W2|W2].
    - fold (wt m). rewrite W2, !Rmult_0_r, Rmult_0_l, round_0 by apply valid_rnd_N. rewrite Rminus_0_r, Rabs_R0. lra.
    - fold (wt m) in *. rewrite (Rmult_comm (wt m)). apply Rle_trans with (1 := rnd_error _). rewrite eps_u.
      assert (bpow radix2 (-1075) <= u * (M * wt m)).
      { apply Rle_trans with (u * (bpow radix2 (-400) * bpow radix2 (-400))); [rewrite <- !bpow_plus; apply bpow_le; lia|].
        apply Rmult_le_compat_l; [apply bpow_ge_0|]. apply Rmult_le_compat; try apply bpow_ge_0; assumption. }
      assert (u * Rabs (val (fst m) * wt m) <= u * (M * wt m)) by (apply Rmult_le_compat_l; [apply bpow_ge_0|exact PB]). lra. }
  assert (PA : forall m, In m l -> Rabs (val (t m)) <= (1 + eps) * M * wt m).
  { intros m Hm. destruct (PT m Hm) as [_ E]. destruct (WP m Hm) as [[W0 W1] W2]. pose proof (HM m Hm) as VM.
    replace (val (t m)) with ((val (t m) - wt m * val (fst m)) + wt m * val (fst m)) by ring. apply Rle_trans with (1 := Rabs_triang _ _).
    rewrite (Rabs_mult (wt m)), (Rabs_pos_eq (wt m)) by exact W0. assert (wt m * Rabs (val (fst m)) <= wt m * M) by (apply Rmult_le_compat_l; assumption). lra. }
  assert (PS : total (fun m => Rabs (val (t m))) l <= (1 + eps) * M * W).
  { apply Rle_trans with (total (fun m => (1 + eps) * M * wt m) l); [apply total_le; exact PA|rewrite total_scal; fold W; lra]. }
  assert (E4 : n * eps <= / 4) by exact NE. assert (E1 : eps <= / 4) by nra.
  destruct (adds_error (map t l) (t_sum T (map t l)) (HT _)) as [FN EN].
  { apply Forall_forall. intros x Hx. apply in_map_iff in Hx. destruct Hx as (m & <- & Hm). apply (proj1 (PT m Hm)). }
  { rewrite (proj2 (HS t)). exact HL5. }
  { rewrite total_map. apply Rle_trans with (1 := PS). apply Rle_trans with (bpow radix2 1 * bpow radix2 400 * bpow radix2 440).
    - apply Rmult_le_compat; [nra|lra| |exact WB]. apply Rmult_le_compat; [lra|lra| |exact MU]. change (bpow radix2 1) with 2. lra.
    - rewrite <- !bpow_plus. apply bpow_le. lia. }
  rewrite (proj1 (HS t)), !total_map in EN.
  set (N' := val (t_sum T (map t l))) in *. set (D' := val (t_sum T (map snd l))) in *. set (N := total (fun m => wt m * val (fst m)) l).
  assert (DN : Rabs (N' - N) <= (n + 2) * eps * M * W).
  { replace (N' - N) with ((N' - total (fun a => val (t a)) l) + (total (fun a => val (t a)) l - N)) by ring. apply Rle_trans with (1 := Rabs_triang _ _).
    assert (D2 : Rabs (total (fun a => val (t a)) l - N) <= eps * M * W).
    { apply Rle_trans with (total (fun m => eps * M * wt m) l); [apply total_diff; intros m Hm; apply (proj2 (PT m Hm))|rewrite total_scal; fold W; lra]. }
    assert (D1 : n * eps * total (fun a => Rabs (val (t a))) l <= n * eps * ((1 + eps) * M * W)) by (apply Rmult_le_compat_l; [nra|exact PS]).
    assert (0 < M * W) by nra. assert (D3 : n * eps * ((1 + eps) * M * W) <= (n + 1) * eps * (M * W)).
    { replace (n * eps * ((1 + eps) * M * W)) with ((n * eps + n * eps * eps) * (M * W)) by ring. apply Rmult_le_compat_r; [lra|]. nra. }
    lra. }
  assert (NB : Rabs N <= M * W).
  { unfold N. apply Rle_trans with (1 := total_abs _ _). apply Rle_trans with (total (fun m => M * wt m) l); [|rewrite total_scal; fold W; lra].
    apply total_le. intros m Hm. destruct (WP m Hm) as [[W0 _] _]. rewrite Rabs_mult, (Rabs_pos_eq (wt m)) by exact W0. rewrite Rmult_comm. apply Rmult_le_compat_r; [exact W0|apply HM; exact Hm]. }
  assert (DB : 3 / 4 * W <= D').
  { assert (n * eps * W <= / 4 * W) by (apply Rmult_le_compat_r; lra). assert (- (/ 4 * W) <= D' - W) by (apply Rabs_le_inv in ED; lra). lra. }
  assert (QB : Rabs (N / W) <= M).
  { unfold Rdiv. rewrite Rabs_mult, (Rabs_inv W), (Rabs_pos_eq W) by lra. apply Rmult_le_reg_r with W; [exact HW|]. rewrite Rmult_assoc, Rinv_l by lra. lra. }
  assert (QQ : Rabs (N' / D' - N / W) <= (3 * n + 3) * eps * M).
  { replace (N' / D' - N / W) with (((N' - N) + N / W * (W - D')) * / D') by (field; lra). rewrite Rabs_mult, (Rabs_inv D'), (Rabs_pos_eq D') by lra.
    apply Rmult_le_reg_r with D'; [lra|]. rewrite Rmult_assoc, Rinv_l, Rmult_1_r by lra. apply Rle_trans with (1 := Rabs_triang _ _).
    rewrite Rabs_mult. rewrite (Rabs_minus_sym W D').
    assert (Rabs (N / W) * Rabs (D' - W) <= M * (n * eps * W)) by (apply Rmult_le_compat; try apply Rabs_pos; assumption).
    apply Rle_trans with ((2 * n + 2) * eps * M * W); [lra|].
    apply Rle_trans with ((3 * n + 3) * eps * M * (3 / 4 * W)); [|apply Rmult_le_compat_l; [|exact DB]; apply Rmult_le_pos; [apply Rmult_le_pos|]; lra].
    assert (0 <= eps * M * W) by (apply Rmult_le_pos; [apply Rmult_le_pos|]; lra).
    replace ((2 * n + 2) * eps * M * W) with ((2 * n + 2) * (eps * M * W)) by ring.
    replace ((3 * n + 3) * eps * M * (3 / 4 * W)) with ((9 / 4 * n + 9 / 4) * (eps * M * W)) by field. apply Rmult_le_compat_r; lra. }
  assert (NM : (3 * n + 3) * eps * M <= M).
  { apply Rle_trans with (1 * M); [|lra]. apply Rmult_le_compat_r; [lra|].
    assert (n * eps <= / 4096).
    { apply Rle_trans with (bpow radix2 40 * eps); [apply Rmult_le_compat_r; lra|]. rewrite <- bpow_plus. change (/ 4096) with (bpow radix2 (-12)). apply bpow_le. lia. }
    nra. }
  destruct (quotient_error (t_sum T (map t l)) (t_sum T (map snd l)) (N / W) M FN) as [F G].
  - fold D'. lra.
  - split; [apply Rle_trans with (2 := ML); apply bpow_le; lia|apply Rle_trans with (1 := MU); apply bpow_le; lia].
  - fold N' D'. lra.
  - exact QB.
  - split; [exact F|]. fold N' D' in G. fold N. lra.
Qed.
