(** * CenterFloatTop: centers in floating point *)

From Coq Require Import ZArith QArith Qcanon Qreals Reals List Bool Lia Lra Psatz Permutation.
From Flocq Require Import Core Relative BinarySingleNaN.
From Verif Require Import Base BaseLemmas Cluster SpecCluster ClusterGeom KernelProofs Center SpecCenter CenterProofs CenterTop CenterLabels Ensemble Double SpecDouble DoubleProofs DoubleError EnsembleFloat
  EnsembleFloatProofs CirclesFloat CirclesFloatGrid CenterFloat SpecCenterFloat CenterFloatSums CenterFloatTrig.
Import SpecCenter ListNotations.
Open Scope R_scope.

Local Notation rnd := (round radix2 (FLT_exp (-1074) 53) ZnearestE).
Local Notation u := (bpow radix2 (-53)).
Local Notation eps := (bpow radix2 (-52)).

(** ** The calls return *)

Lemma fall_axes_nth : forall T per avg ps shape k i len, nth_error shape k = Some len ->
  nth_error (fall_axes T per avg shape ps i) k = Some (faxis_center T per avg len (fcolumn (i + k) ps)).
Proof.
  intros T per avg ps shape. induction shape as [|x shape IH]; intros k i len H; [destruct k; discriminate|].
  destruct k as [|k]; cbn in H |- *; [injection H as ->; rewrite Nat.add_0_r; reflexivity|].
  rewrite (IH k (S i) len H). do 3 f_equal. lia.
Qed.

Lemma frows_fit_iff : forall shape (ps : list (list double)), frows_fit shape ps = true <-> (forall p, In p ps -> length p = length shape).
Proof.
  intros shape ps. unfold frows_fit. rewrite forallb_forall. split; intros H p Hp; specialize (H p Hp); [apply Nat.eqb_eq in H; exact H|apply Nat.eqb_eq; exact H].
Qed.

Lemma fcenter_runs : forall T shape ps per k len, ps <> [] -> (forall p, In p ps -> length p = length shape) -> nth_error shape k = Some len ->
  exists r, fcenter T shape ps per = Ok r /\ nth_error r k = Some (faxis_center T per (fmean_of T) len (fcolumn k ps)).
Proof.
  intros T shape ps per k len HN HF HK. unfold fcenter. rewrite (proj2 (frows_fit_iff shape ps) HF). cbn [negb].
  assert (E : fno_positions shape ps = false) by (destruct shape; [destruct k; discriminate|]; destruct ps; [congruence|reflexivity]). rewrite E.
  eexists. split; [reflexivity|]. rewrite (fall_axes_nth T per _ ps shape k 0 len HK). reflexivity.
Qed.

Lemma fmass_runs : forall T shape (l : list (list double * double)) per k len, l <> [] -> (forall m, In m l -> length (fst m) = length shape) -> nth_error shape k = Some len ->
  exists r, fcenter_of_mass T shape (map fst l) (map snd l) per = Ok r /\
    nth_error r k = Some (faxis_center T per (faverage_of T (map snd l)) len (map (fun m => nth k (fst m) dzero) l)).
Proof.
  intros T shape l per k len HN HF HK. unfold fcenter_of_mass. rewrite (proj2 (frows_fit_iff shape (map fst l))).
  - cbn [negb]. assert (E : fno_positions shape (map fst l) = false) by (destruct shape; [destruct k; discriminate|]; destruct l; [congruence|reflexivity]). rewrite E.
    rewrite !map_length, Nat.eqb_refl. cbn [negb]. eexists. split; [reflexivity|].
    rewrite (fall_axes_nth T per _ _ shape k 0 len HK). unfold fcolumn. rewrite map_map. reflexivity.
  - intros p Hp. apply in_map_iff in Hp. destruct Hp as (m & <- & Hm). apply HF. exact Hm.
Qed.

Lemma coordinate_val : forall k p, coordinate k (real_position p) = val (nth k p dzero).
Proof. intros k p. unfold coordinate, real_position. exact (map_nth (fun x : double => B2R x) p dzero k). Qed.

Lemma nth_finite : forall shape p k, finite_position shape p -> (k < length shape)%nat -> finite (nth k p dzero).
Proof. intros shape p k [HL HF] HK. apply (proj1 (Forall_forall _ _) HF). apply nth_In. lia. Qed.

(** ** Without periodicity *)

Lemma mean_real : forall T shape ps k M, sums T -> ps <> [] -> Forall (finite_position shape) ps -> (k < length shape)%nat -> (lenZ ps <= 2 ^ 50)%Z ->
  bpow radix2 (-1000) <= M <= bpow radix2 800 -> (forall p, In p ps -> Rabs (coordinate k (real_position p)) <= M) ->
  exists r c, fcenter T shape ps false = Ok r /\ at_faxis r k c /\
    Rabs (B2R c - total (coordinate k) (map real_position ps) / INR (length ps)) <= (INR (length ps) + 2) * eps * M.
Proof.
  intros T shape ps k M HT HN HF HK HL HM HB. rewrite Forall_forall in HF.
  destruct (nth_error shape k) as [len|] eqn:EL; [|apply nth_error_None in EL; lia].
  destruct (fcenter_runs T shape ps false k len HN (fun p Hp => proj1 (HF p Hp)) EL) as (r & ER & EN).
  destruct (mean_error T (fcolumn k ps) M HT) as [F E].
  - unfold fcolumn. destruct ps; [congruence|discriminate].
  - apply Forall_forall. intros x Hx. unfold fcolumn in Hx. apply in_map_iff in Hx. destruct Hx as (p & <- & Hp). apply (nth_finite shape); auto.
  - unfold fcolumn, lenZ in *. rewrite map_length. exact HL.
  - exact HM.
  - intros x Hx. unfold fcolumn in Hx. apply in_map_iff in Hx. destruct Hx as (p & <- & Hp). rewrite <- coordinate_val. apply HB. exact Hp.
  - exists r, (fmean_of T (fcolumn k ps)). split; [exact ER|]. split; [split; [exact EN|exact F]|].
    unfold fcolumn in E at 2 3 4. rewrite map_length, total_map in E. rewrite total_map.
    rewrite (total_ext _ (fun p => coordinate k (real_position p))) in E by (intros p _; symmetry; apply coordinate_val). exact E.
Qed.

Lemma mass_weights : forall (l : list (list double * double)) k, total snd (map real_mass l) = total wt (map (fun m => (nth k (fst m) dzero, snd m)) l).
Proof. intros l k. rewrite !total_map. reflexivity. Qed.

Lemma mass_real : forall T shape (l : list (list double * double)) k M, sums T -> Forall (fun m => finite_position shape (fst m) /\ weight (snd m)) l -> (k < length shape)%nat ->
  (lenZ l <= 2 ^ 40)%Z -> 0 < total snd (map real_mass l) -> bpow radix2 (-400) <= M <= bpow radix2 400 ->
  (forall m, In m l -> Rabs (coordinate k (real_position (fst m))) <= M) ->
  exists r c, fcenter_of_mass T shape (map fst l) (map snd l) false = Ok r /\ at_faxis r k c /\
    Rabs (B2R c - total (fun m => snd m * coordinate k (fst m)) (map real_mass l) / total snd (map real_mass l)) <= (3 * INR (length l) + 5) * eps * M.
Proof.
  intros T shape l k M HT HF HK HL HW HM HB. rewrite Forall_forall in HF.
  assert (HN : l <> []) by (intros ->; cbn in HW; lra).
  destruct (nth_error shape k) as [len|] eqn:EL; [|apply nth_error_None in EL; lia].
  destruct (fmass_runs T shape l false k len HN (fun p Hp => proj1 (proj1 (HF p Hp))) EL) as (r & ER & EN).
  set (l' := map (fun m => (nth k (fst m) dzero, snd m)) l).
  assert (E1 : map snd l = map snd l') by (unfold l'; rewrite map_map; reflexivity).
  assert (E2 : map (fun m => nth k (fst m) dzero) l = map fst l') by (unfold l'; rewrite map_map; reflexivity).
  destruct (average_error T l' M HT) as [F E].
  - apply Forall_forall. intros x Hx. unfold l' in Hx. apply in_map_iff in Hx. destruct Hx as (m & <- & Hm). destruct (HF m Hm) as [H1 H2]. split; [apply (nth_finite shape); auto|exact H2].
  - unfold l', lenZ in *. rewrite map_length. exact HL.
  - unfold l'. rewrite <- mass_weights. exact HW.
  - exact HM.
  - intros x Hx. unfold l' in Hx. apply in_map_iff in Hx. destruct Hx as (m & <- & Hm). cbn [fst]. rewrite <- coordinate_val. apply HB. exact Hm.
  - exists r, (faverage_of T (map snd l') (map fst l')). split; [exact ER|]. split; [split; [rewrite EN, E1, E2; reflexivity|exact F]|].
    assert (EQ1 : total wt l' = total snd (map real_mass l)) by (unfold l'; symmetry; apply mass_weights).
    assert (EQ2 : total (fun m => wt m * val (fst m)) l' = total (fun m => snd m * coordinate k (fst m)) (map real_mass l)).
    { unfold l'. rewrite !total_map. apply total_ext. intros m _. unfold wt, real_mass. cbn [fst snd]. rewrite coordinate_val. reflexivity. }
    rewrite EQ1, EQ2 in E. unfold l' in E at 3. rewrite map_length in E. exact E.
Qed.

(** Whole numbers. *)
Lemma qsum_zq : forall l, Ensemble.qsum (map zq l) = zq (zsum l).
Proof. induction l as [|z l IH]; [reflexivity|]. cbn [map zsum Ensemble.qsum fold_right]. unfold Ensemble.qsum in IH. rewrite IH. apply zq_plus. Qed.
Lemma zsum_real : forall {A} (f : A -> Z) l, IZR (zsum (map f l)) = total (fun a => IZR (f a)) l.
Proof. intros A f l. induction l as [|a l IH]; [reflexivity|]. cbn [map zsum total]. rewrite plus_IZR, IH. reflexivity. Qed.
Lemma zsum_abs : forall l M, (forall z, In z l -> (Z.abs z <= M)%Z) -> (Z.abs (zsum l) <= lenZ l * M)%Z.
Proof.
  intros l M H. induction l as [|z l IH]; [cbn; lia|]. cbn [zsum]. rewrite (eq_refl : lenZ (z :: l) = Z.of_nat (S (length l))). rewrite Nat2Z.inj_succ. fold (lenZ l).
  pose proof (H z (or_introl eq_refl)). assert (Z.abs (zsum l) <= lenZ l * M)%Z by (apply IH; intros; apply H; right; assumption). unfold lenZ in *. lia.
Qed.

Lemma sum_integers : forall T l M, sums T -> (forall z, In z l -> (Z.abs z <= M)%Z) -> (0 <= M)%Z -> (lenZ l * M <= 2 ^ 53)%Z ->
  finite (t_sum T (map dz l)) /\ val (t_sum T (map dz l)) = IZR (zsum l).
Proof.
  intros T l M HT HM H0 HL. destruct l as [|z0 l0] eqn:EL.
  - cbn [map]. destruct (adds_error [] (t_sum T []) (HT [])) as [F E]; [apply Forall_nil|unfold lenZ; cbn; lia|cbn [total]; apply bpow_ge_0|].
    split; [exact F|]. cbn [length INR total] in E. rewrite !Rmult_0_l, Rminus_0_r in E. cbn [zsum]. destruct (Req_dec (val (t_sum T [])) 0) as [Q|Q]; [exact Q|].
    apply Rabs_pos_lt in Q. lra.
  - rewrite <- EL in *. assert (H1 : (1 <= lenZ l)%Z) by (rewrite EL; unfold lenZ; cbn; lia).
    assert (MB : (M <= 2 ^ 53)%Z) by nia.
    assert (F : Forall2 (exactly M) (map zq l) (map dz l)).
    { clear EL HL H1. induction l as [|z l IH]; [constructor|]. cbn [map]. constructor.
      - apply exactly_weaken with (Z.abs z); [apply exactly_dz|]; specialize (HM z (or_introl eq_refl)); lia.
      - apply IH. intros y Hy. apply HM. right. exact Hy. }
    pose proof (adds_exact (map dz l) _ (HT _) M (map zq l) F H0) as A. assert (LL : lenZ (map dz l) = lenZ l) by (unfold lenZ; rewrite map_length; reflexivity). rewrite LL in A.
    specialize (A HL). destruct (exactly_value _ _ _ A) as [F' V]. split; [exact F'|]. unfold val. rewrite V, qsum_zq. apply Q2R_zq.
Qed.

Lemma mean_integers : forall T shape (ps : list (list Z)) k M, sums T -> ps <> [] -> (forall p, In p ps -> length p = length shape) -> (k < length shape)%nat ->
  (forall p, In p ps -> (Z.abs (nth k p 0%Z) <= M)%Z) -> (lenZ ps * M <= 2 ^ 53)%Z -> (lenZ ps <= 2 ^ 53)%Z ->
  exists r c, fcenter T shape (map (map dz) ps) false = Ok r /\ at_faxis r k c /\
    nearest_double (total (fun p => IZR (nth k p 0%Z)) ps / INR (length ps)) c /\
    (forall a b, (forall p, In p ps -> (a <= nth k p 0 <= b)%Z) -> IZR a <= B2R c <= IZR b).
Proof.
  intros T shape ps k M HT HN HF HK HM HL HL'.
  destruct (nth_error shape k) as [len|] eqn:EL; [|apply nth_error_None in EL; lia].
  assert (HN' : map (map dz) ps <> []) by (destruct ps; [congruence|discriminate]).
  destruct (fcenter_runs T shape (map (map dz) ps) false k len HN') as (r & ER & EN); [|exact EL|].
  { intros p Hp. apply in_map_iff in Hp. destruct Hp as (q & <- & Hq). rewrite map_length. apply HF. exact Hq. }
  assert (EC : fcolumn k (map (map dz) ps) = map dz (map (fun p => nth k p 0%Z) ps)).
  { unfold fcolumn. rewrite !map_map. apply map_ext_in. intros p Hp. change dzero with (dz 0). apply map_nth. }
  set (z := map (fun p => nth k p 0%Z) ps) in *.
  assert (LZ : lenZ z = lenZ ps) by (unfold z, lenZ; rewrite map_length; reflexivity).
  assert (M0 : (0 <= M)%Z) by (destruct ps as [|p ps']; [congruence|]; specialize (HM p (or_introl eq_refl)); lia).
  assert (HZ : forall x, In x z -> (Z.abs x <= M)%Z) by (intros x Hx; apply in_map_iff in Hx; destruct Hx as (p & <- & Hp); apply HM; exact Hp).
  destruct (sum_integers T z M HT HZ M0) as [FS ES]; [rewrite LZ; exact HL|].
  destruct (nonempty ps HN) as [N1 N2].
  destruct (dz_value (lenZ ps)) as [FD ED]; [lia|].
  assert (BZ : (Z.abs (zsum z) <= 2 ^ 53)%Z) by (pose proof (zsum_abs z M HZ); lia).
  assert (EI : IZR (lenZ ps) = INR (length ps)) by (unfold lenZ; symmetry; apply INR_IZR_INZ).
  assert (Q : nearest_double (IZR (zsum z) / INR (length ps)) (fmean_of T (map dz z))).
  { unfold fmean_of. replace (lenZ (map dz z)) with (lenZ ps) by (unfold lenZ in *; rewrite map_length; lia).
    rewrite <- EI, <- ED, <- ES. apply quotient_of; [exact FS|change (B2R (dz (lenZ ps))) with (val (dz (lenZ ps))); rewrite ED, EI; lra|].
    change (B2R (dz (lenZ ps))) with (val (dz (lenZ ps))). change (B2R (t_sum T (map dz z))) with (val (t_sum T (map dz z))). rewrite ES, ED, EI.
    unfold Rdiv. rewrite Rabs_mult, (Rabs_inv (INR _)), (Rabs_pos_eq (INR _)) by lra. rewrite <- abs_IZR.
    apply Rle_trans with (IZR (2 ^ 53) * 1).
    - apply Rmult_le_compat; [apply IZR_le; lia|left; apply Rinv_0_lt_compat; lra|apply IZR_le; exact BZ|rewrite <- Rinv_1; apply Rinv_le_contravar; lra].
    - rewrite Rmult_1_r. rewrite IZR_pow by lia. apply bpow_le. lia. }
  assert (ET : IZR (zsum z) = total (fun p => IZR (nth k p 0%Z)) ps) by (unfold z; apply zsum_real).
  exists r, (fmean_of T (map dz z)). split; [exact ER|]. split; [split; [rewrite EN; unfold faxis_center; cbn [negb]; rewrite EC; reflexivity|apply Q]|].
  split; [rewrite <- ET; exact Q|]. intros a b HAB. destruct Q as [_ Q]. rewrite Q, ET.
  assert (MONO : forall x y, x <= y -> rnd x <= rnd y) by (intros x y H; apply round_le; [apply FLT_exp_valid; reflexivity|apply valid_rnd_N|exact H]).
  assert (INT : forall x, (Z.abs x <= 2 ^ 53)%Z -> rnd (IZR x) = IZR x) by (intros x Hx; exact (int_round x Hx)).
  assert (MB : (M <= 2 ^ 53)%Z) by nia.
  assert (B : forall lo hi, (forall p, In p ps -> (lo <= nth k p 0 <= hi)%Z) -> IZR lo <= total (fun p => IZR (nth k p 0%Z)) ps / INR (length ps) <= IZR hi).
  { intros lo hi HB. assert (IZR lo * INR (length ps) <= total (fun p => IZR (nth k p 0%Z)) ps <= IZR hi * INR (length ps)).
    { rewrite <- (total_one ps), <- !total_scal. split; apply total_le; intros p Hp; rewrite Rmult_1_r; apply IZR_le; apply HB; exact Hp. }
    split; apply Rmult_le_reg_r with (INR (length ps)); try lra; unfold Rdiv; rewrite Rmult_assoc, Rinv_l by lra; lra. }
  destruct (B (Z.max a (- M)) (Z.min b M)) as [B1 B2].
  { intros p Hp. specialize (HAB p Hp). specialize (HM p Hp). lia. }
  destruct ps as [|p0 ps']; [congruence|]. pose proof (HAB p0 (or_introl eq_refl)) as A0. pose proof (HM p0 (or_introl eq_refl)) as M1.
  split.
  - apply Rle_trans with (IZR (Z.max a (- M))); [apply IZR_le; lia|]. rewrite <- (INT (Z.max a (- M))) by lia. apply MONO. exact B1.
  - apply Rle_trans with (IZR (Z.min b M)); [|apply IZR_le; lia]. rewrite <- (INT (Z.min b M)) by lia. apply MONO. exact B2.
Qed.

(** ** Periodic *)

Lemma concentration_rho : forall len k (l : list mass) c rho, 0 <= rho ->
  sum_cos len k l = rho * cos (2 * PI * c / len) -> sum_sin len k l = rho * sin (2 * PI * c / len) ->
  concentration len k l = rho / total snd l.
Proof.
  intros len k l c rho H0 HC HS. unfold concentration. rewrite HC, HS. f_equal.
  set (f := 2 * PI * c / len). pose proof (sin2_cos2 f) as Q. unfold Rsqr in Q.
  replace (rho * cos f * (rho * cos f) + rho * sin f * (rho * sin f)) with (rho * rho * (sin f * sin f + cos f * cos f)) by ring. rewrite Q, Rmult_1_r. apply sqrt_square. exact H0.
Qed.

Lemma rho_bound : forall len k (l : list mass) c rho, (forall m, In m l -> 0 <= snd m) ->
  sum_cos len k l = rho * cos (2 * PI * c / len) -> sum_sin len k l = rho * sin (2 * PI * c / len) -> rho <= total snd l.
Proof.
  intros len k l c rho HW HC HS. set (f := 2 * PI * c / len) in *. pose proof (sin2_cos2 f) as Q. unfold Rsqr in Q.
  replace rho with (cos f * sum_cos len k l + sin f * sum_sin len k l) by (rewrite HC, HS; replace (cos f * (rho * cos f) + sin f * (rho * sin f)) with (rho * (sin f * sin f + cos f * cos f)) by ring; rewrite Q; ring).
  unfold sum_cos, sum_sin. rewrite <- !total_scal, <- total_plus. apply total_le. intros m Hm. specialize (HW m Hm).
  set (g := 2 * PI * coordinate k (fst m) / len). replace (cos f * (snd m * cos g) + sin f * (snd m * sin g)) with (snd m * cos (f - g)) by (rewrite cos_minus; ring).
  pose proof (COS_bound (f - g)). nra.
Qed.

Lemma circle_center : forall T shape ps k len K, sums T -> precise T -> ps <> [] -> Forall (finite_position shape) ps -> (lenZ ps <= 2 ^ 40)%Z ->
  proper_side shape k len -> 1 <= K <= bpow radix2 20 -> (forall p, In p ps -> Rabs (coordinate k (real_position p)) <= K * len) ->
  let l := unit_mass (map real_position ps) in let b := (K + INR (length ps)) * bpow radix2 (-46) in
  4 * b <= concentration len k l ->
  exists r c, fcenter T shape ps true = Ok r /\ at_faxis r k c /\ near_circular_mean (len * (b / concentration len k l)) len k l c.
Proof.
  intros T shape ps k len K HT HP HN HF HL (x & EX & [FX VX] & HS) HK HB l b HC. rewrite Forall_forall in HF.
  assert (HX : val x = len). { assert (Q : Rabs (B2R x - len) = 0) by (pose proof (Rabs_pos (B2R x - len)); lra). destruct (Req_dec (B2R x - len) 0) as [Q0|Q0]; [unfold val; lra|apply Rabs_pos_lt in Q0; lra]. }
  assert (KK : (k < length shape)%nat) by (apply nth_error_Some; rewrite EX; discriminate).
  destruct (fcenter_runs T shape ps true k x HN (fun p Hp => proj1 (HF p Hp)) EX) as (r & ER & EN).
  set (v := fun p : list double => nth k p dzero). destruct (nonempty ps HN) as [N1 _].
  assert (TW : total snd l = INR (length ps)) by (unfold l; rewrite unit_total, map_length; reflexivity).
  assert (TW' : total (fun _ : list double => 1) ps = INR (length ps)) by apply total_one.
  pose proof (bpow_gt_0 radix2 (-52)) as PE. set (e := (INR (length ps) + 2) * eps).
  assert (E64 : 64 * u = bpow radix2 (-47)) by (change 64 with (bpow radix2 6); rewrite <- bpow_plus; reflexivity).
  assert (E128 : 128 * u = bpow radix2 (-46)) by (change 128 with (bpow radix2 7); rewrite <- bpow_plus; reflexivity).
  assert (E46 : bpow radix2 (-46) = 64 * eps) by (change 64 with (bpow radix2 6); rewrite <- bpow_plus; reflexivity).
  assert (EU : eps = 2 * u) by apply eps_u.
  assert (EB : 128 * u * K + e <= b) by (unfold b, e; rewrite E128, E46; nra).
  assert (ED : 64 * u * K + e <= b) by (pose proof u_pos; nra).
  assert (AV : forall g : list double -> double, (forall p, In p ps -> finite (g p) /\ Rabs (val (g p)) <= 1) ->
     finite (fmean_of T (map g ps)) /\ Rabs (val (fmean_of T (map g ps)) - total (fun p => 1 * val (g p)) ps / total (fun _ => 1) ps) <= e).
  { intros g HG. destruct (mean_error T (map g ps) 1 HT) as [F E].
    - destruct ps; [congruence|discriminate].
    - apply Forall_forall. intros y Hy. apply in_map_iff in Hy. destruct Hy as (p & <- & Hp). apply HG. exact Hp.
    - unfold lenZ in *. rewrite map_length. lia.
    - change 1 with (bpow radix2 0). split; apply bpow_le; lia.
    - intros y Hy. apply in_map_iff in Hy. destruct Hy as (p & <- & Hp). apply HG. exact Hp.
    - split; [exact F|]. rewrite map_length, total_map in E. rewrite TW'. rewrite (total_ext (fun p => 1 * val (g p)) (fun p => val (g p))) by (intros; ring). unfold e. lra. }
  assert (SC : sum_cos len k l = total (fun p => 1 * cos (2 * PI * val (v p) / len)) ps).
  { unfold sum_cos, l, unit_mass. rewrite !total_map. apply total_ext. intros p _. cbn [fst snd]. rewrite coordinate_val. reflexivity. }
  assert (SS : sum_sin len k l = total (fun p => 1 * sin (2 * PI * val (v p) / len)) ps).
  { unfold sum_sin, l, unit_mass. rewrite !total_map. apply total_ext. intros p _. cbn [fst snd]. rewrite coordinate_val. reflexivity. }
  assert (VV : forall p, In p ps -> finite (v p) /\ Rabs (val (v p)) <= K * val x).
  { intros p Hp. split; [apply (nth_finite shape); auto|]. unfold v. rewrite HX, <- coordinate_val. apply HB. exact Hp. }
  assert (NN : forall m, In m l -> 0 <= snd m) by (intros m Hm; unfold l, unit_mass in Hm; apply in_map_iff in Hm; destruct Hm as (q & <- & _); cbn; lra).
  assert (MAIN : forall c0, circular_mean len k l c0 ->
    finite (faxis_center T true (fmean_of T) x (map v ps)) /\
    exists m : Z, Rabs (val (faxis_center T true (fmean_of T) x (map v ps)) - (c0 + IZR m * len)) <= len * (b / concentration len k l)).
  { intros c0 (rho & R0 & C1 & C2). pose proof (concentration_rho len k l c0 rho R0 C1 C2) as CR. pose proof (rho_bound len k l c0 rho NN C1 C2) as RB.
    rewrite SC in C1. rewrite SS in C2. rewrite <- HX in C1, C2. rewrite CR, TW in HC |- *.
    assert (B0 : 0 < b) by (unfold b; apply Rmult_lt_0_compat; [lra|apply bpow_gt_0]).
    destruct (axis_error T ps v (fun _ => 1) (fmean_of T) e x K c0 rho HP) as [F (m & E)]; try assumption.
    - intros; lra.
    - rewrite TW'. lra.
    - rewrite HX. exact HS.
    - unfold e. nra.
    - rewrite TW'. split; [lra|]. rewrite TW in RB. apply Rmult_le_reg_r with (INR (length ps)); [lra|]. unfold Rdiv. rewrite Rmult_assoc, Rinv_l by lra. lra.
    - split; [exact F|]. exists m. rewrite TW', HX in E. apply Rle_trans with (1 := E).
      assert (LP : 0 < len) by (apply Rlt_le_trans with (2 := proj1 HS); apply bpow_gt_0).
      apply Rmult_le_compat_l; [lra|]. apply Rmult_le_compat_r; [|exact EB]. left. apply Rinv_0_lt_compat. lra. }
  assert (LP : 0 < len) by (apply Rlt_le_trans with (2 := proj1 HS); apply bpow_gt_0).
  exists r, (faxis_center T true (fmean_of T) x (map v ps)). split; [exact ER|]. split.
  - split; [exact EN|].
    destruct (atan2_spec true (sum_sin len k l) (sum_cos len k l)) as (rho & R0 & C1 & C2).
    set (c0 := atan2_num true (sum_sin len k l) (sum_cos len k l) * len / (2 * PI)).
    assert (EC : atan2_num true (sum_sin len k l) (sum_cos len k l) = 2 * PI * c0 / len) by (unfold c0; field; pose proof PI_RGT_0; lra).
    apply (MAIN c0). exists rho. rewrite <- EC. auto.
  - intros c0 Hc0. apply MAIN. exact Hc0.
Qed.

Lemma circle_mass : forall T shape (l : list (list double * double)) k len K, sums T -> precise T -> Forall (fun m => finite_position shape (fst m) /\ weight (snd m)) l -> (lenZ l <= 2 ^ 40)%Z ->
  proper_side shape k len -> 1 <= K <= bpow radix2 20 -> (forall m, In m l -> Rabs (coordinate k (real_position (fst m))) <= K * len) ->
  0 < total snd (map real_mass l) ->
  let b := (K + INR (length l)) * bpow radix2 (-46) in
  4 * b <= concentration len k (map real_mass l) ->
  exists r c, fcenter_of_mass T shape (map fst l) (map snd l) true = Ok r /\ at_faxis r k c /\
    near_circular_mean (len * (b / concentration len k (map real_mass l))) len k (map real_mass l) c.
Proof.
  intros T shape l k len K HT HP HF HL (x & EX & [FX VX] & HS) HK HB HW b HC. rewrite Forall_forall in HF.
  assert (HX : val x = len). { assert (Q : Rabs (B2R x - len) = 0) by (pose proof (Rabs_pos (B2R x - len)); lra). destruct (Req_dec (B2R x - len) 0) as [Q0|Q0]; [unfold val; lra|apply Rabs_pos_lt in Q0; lra]. }
  assert (KK : (k < length shape)%nat) by (apply nth_error_Some; rewrite EX; discriminate).
  assert (HN : l <> []) by (intros ->; cbn in HW; lra).
  destruct (fmass_runs T shape l true k x HN (fun p Hp => proj1 (proj1 (HF p Hp))) EX) as (r & ER & EN).
  set (v := fun m : list double * double => nth k (fst m) dzero). destruct (nonempty l HN) as [N1 _].
  set (w := fun m : list double * double => val (snd m)).
  assert (TW : total snd (map real_mass l) = total w l) by (rewrite total_map; reflexivity).
  pose proof (bpow_gt_0 radix2 (-52)) as PE. set (e := (3 * INR (length l) + 5) * eps).
  assert (E128 : 128 * u = bpow radix2 (-46)) by (change 128 with (bpow radix2 7); rewrite <- bpow_plus; reflexivity).
  assert (E46 : bpow radix2 (-46) = 64 * eps) by (change 64 with (bpow radix2 6); rewrite <- bpow_plus; reflexivity).
  assert (EB : 128 * u * K + e <= b) by (unfold b, e; rewrite E128, E46; nra).
  assert (ED : 64 * u * K + e <= b) by (pose proof u_pos; nra).
  assert (W0 : forall m, In m l -> 0 <= w m).
  { intros m Hm. destruct (HF m Hm) as [_ [_ [E|[E _]]]]; unfold w, val; [lra|]. apply Rle_trans with (2 := E). apply bpow_ge_0. }
  assert (AV : forall g : list double * double -> double, (forall p, In p l -> finite (g p) /\ Rabs (val (g p)) <= 1) ->
     finite (faverage_of T (map snd l) (map g l)) /\ Rabs (val (faverage_of T (map snd l) (map g l)) - total (fun p => w p * val (g p)) l / total w l) <= e).
  { intros g HG. set (l' := map (fun m => (g m, snd m)) l).
    assert (E1 : map snd l = map snd l') by (unfold l'; rewrite map_map; reflexivity).
    assert (E2 : map g l = map fst l') by (unfold l'; rewrite map_map; reflexivity). rewrite E1, E2.
    assert (Q1 : total w l = total wt l') by (unfold l'; rewrite total_map; reflexivity).
    assert (Q2 : total (fun p => w p * val (g p)) l = total (fun m => wt m * val (fst m)) l') by (unfold l'; rewrite total_map; reflexivity). rewrite Q1, Q2.
    destruct (average_error T l' 1 HT) as [F E].
    - apply Forall_forall. intros y Hy. unfold l' in Hy. apply in_map_iff in Hy. destruct Hy as (m & <- & Hm). split; [apply HG; exact Hm|apply HF; exact Hm].
    - unfold l', lenZ in *. rewrite map_length. exact HL.
    - rewrite <- Q1, <- TW. exact HW.
    - change 1 with (bpow radix2 0). split; apply bpow_le; lia.
    - intros y Hy. unfold l' in Hy. apply in_map_iff in Hy. destruct Hy as (m & <- & Hm). apply HG. exact Hm.
    - split; [exact F|]. rewrite Rmult_1_r in E. unfold l' in E at 5. rewrite map_length in E. exact E. }
  assert (SC : sum_cos len k (map real_mass l) = total (fun p => w p * cos (2 * PI * val (v p) / len)) l).
  { unfold sum_cos. rewrite !total_map. apply total_ext. intros p _. unfold real_mass. cbn [fst snd]. rewrite coordinate_val. reflexivity. }
  assert (SS : sum_sin len k (map real_mass l) = total (fun p => w p * sin (2 * PI * val (v p) / len)) l).
  { unfold sum_sin. rewrite !total_map. apply total_ext. intros p _. unfold real_mass. cbn [fst snd]. rewrite coordinate_val. reflexivity. }
  assert (VV : forall p, In p l -> finite (v p) /\ Rabs (val (v p)) <= K * val x).
  { intros p Hp. split; [apply (nth_finite shape); [apply HF; exact Hp|exact KK]|]. unfold v. rewrite HX, <- coordinate_val. apply HB. exact Hp. }
  assert (NN : forall m, In m (map real_mass l) -> 0 <= snd m) by (intros m Hm; apply in_map_iff in Hm; destruct Hm as (q & <- & Hq); apply (W0 q Hq)).
  rewrite TW in *.
  assert (MAIN : forall c0, circular_mean len k (map real_mass l) c0 ->
    finite (faxis_center T true (faverage_of T (map snd l)) x (map v l)) /\
    exists m : Z, Rabs (val (faxis_center T true (faverage_of T (map snd l)) x (map v l)) - (c0 + IZR m * len)) <= len * (b / concentration len k (map real_mass l))).
  { intros c0 (rho & R0 & C1 & C2). pose proof (concentration_rho len k _ c0 rho R0 C1 C2) as CR. pose proof (rho_bound len k _ c0 rho NN C1 C2) as RB.
    rewrite SC in C1. rewrite SS in C2. rewrite <- HX in C1, C2. rewrite CR, TW in HC |- *.
    assert (B0 : 0 < b) by (unfold b; apply Rmult_lt_0_compat; [lra|apply bpow_gt_0]).
    destruct (axis_error T l v w (faverage_of T (map snd l)) e x K c0 rho HP) as [F (m & E)]; try assumption.
    - rewrite HX. exact HS.
    - unfold e. nra.
    - split; [lra|]. rewrite TW in RB. apply Rmult_le_reg_r with (total w l); [exact HW|]. unfold Rdiv. rewrite Rmult_assoc, Rinv_l by lra. lra.
    - split; [exact F|]. exists m. rewrite HX in E. apply Rle_trans with (1 := E).
      assert (LP : 0 < len) by (apply Rlt_le_trans with (2 := proj1 HS); apply bpow_gt_0).
      apply Rmult_le_compat_l; [lra|]. apply Rmult_le_compat_r; [|exact EB]. left. apply Rinv_0_lt_compat. lra. }
  assert (LP : 0 < len) by (apply Rlt_le_trans with (2 := proj1 HS); apply bpow_gt_0).
  exists r, (faxis_center T true (faverage_of T (map snd l)) x (map v l)). split; [exact ER|]. split.
  - split; [exact EN|].
    destruct (atan2_spec true (sum_sin len k (map real_mass l)) (sum_cos len k (map real_mass l))) as (rho & R0 & C1 & C2).
    set (c0 := atan2_num true (sum_sin len k (map real_mass l)) (sum_cos len k (map real_mass l)) * len / (2 * PI)).
    assert (EC : atan2_num true (sum_sin len k (map real_mass l)) (sum_cos len k (map real_mass l)) = 2 * PI * c0 / len) by (unfold c0; field; pose proof PI_RGT_0; lra).
    apply (MAIN c0). exists rho. rewrite <- EC. auto.
  - intros c0 Hc0. apply MAIN. exact Hc0.
Qed.

(** In the box. *)
Lemma box_center : forall T shape ps k len per r, sums T -> precise T -> Forall (finite_position shape) ps -> (lenZ ps <= 2 ^ 40)%Z ->
  proper_side shape k len -> (forall p, In p ps -> Rabs (coordinate k (real_position p)) <= bpow radix2 20 * len) -> per = true ->
  fcenter T shape ps per = Ok r -> exists c, at_faxis r k c /\ 0 <= B2R c <= len * (1 + bpow radix2 (-51)).
Proof.
  intros T shape ps k len per r HT HP HF HL (x & EX & [FX VX] & HS) HB -> HR. rewrite Forall_forall in HF.
  assert (HX : val x = len). { assert (Q : Rabs (B2R x - len) = 0) by (pose proof (Rabs_pos (B2R x - len)); lra). destruct (Req_dec (B2R x - len) 0) as [Q0|Q0]; [unfold val; lra|apply Rabs_pos_lt in Q0; lra]. }
  assert (KK : (k < length shape)%nat) by (apply nth_error_Some; rewrite EX; discriminate).
  assert (LP : 0 < len) by (apply Rlt_le_trans with (2 := proj1 HS); apply bpow_gt_0).
  assert (E51 : bpow radix2 (-51) = 4 * u) by (replace (-51)%Z with (2 + -53)%Z by lia; rewrite bpow_plus; reflexivity). rewrite E51. pose proof u_pos.
  destruct ps as [|p0 ps0].
  - exists dzero. split.
    + split; [|reflexivity]. assert (HR' : r = map (fun _ => dzero) shape) by (unfold fcenter in HR; destruct shape; injection HR as <-; reflexivity). rewrite HR', (nth_error_map (fun _ : double => dzero)), EX. reflexivity.
    + cbn. nra.
  - set (ps := p0 :: ps0) in *. assert (HN : ps <> []) by discriminate.
    destruct (fcenter_runs T shape ps true k x HN (fun p Hp => proj1 (HF p Hp)) EX) as (r' & ER & EN). rewrite HR in ER. injection ER as <-.
    eexists. split; [split; [exact EN|]|].
    + apply (axis_range T (fmean_of T) x (fcolumn k ps) HP).
      * intros g HG. destruct (mean_error T (map g (fcolumn k ps)) 1 HT) as [F E]; [discriminate| | | | |exact F].
        -- apply Forall_forall. intros y Hy. apply in_map_iff in Hy. destruct Hy as (p & <- & Hp). apply HG. exact Hp.
        -- unfold lenZ, fcolumn in *. rewrite !map_length. lia.
        -- change 1 with (bpow radix2 0). split; apply bpow_le; lia.
        -- intros y Hy. apply in_map_iff in Hy. destruct Hy as (p & <- & Hp). apply HG. exact Hp.
      * exact FX.
      * rewrite HX. exact HS.
      * intros a Ha. unfold fcolumn in Ha. apply in_map_iff in Ha. destruct Ha as (p & <- & Hp). split; [apply (nth_finite shape); auto|]. rewrite HX, <- coordinate_val. apply HB. exact Hp.
    + rewrite <- HX. apply (axis_range T (fmean_of T) x (fcolumn k ps) HP).
      * intros g HG. destruct (mean_error T (map g (fcolumn k ps)) 1 HT) as [F E]; [discriminate| | | | |exact F].
        -- apply Forall_forall. intros y Hy. apply in_map_iff in Hy. destruct Hy as (p & <- & Hp). apply HG. exact Hp.
        -- unfold lenZ, fcolumn in *. rewrite !map_length. lia.
        -- change 1 with (bpow radix2 0). split; apply bpow_le; lia.
        -- intros y Hy. apply in_map_iff in Hy. destruct Hy as (p & <- & Hp). apply HG. exact Hp.
      * exact FX.
      * rewrite HX. exact HS.
      * intros a Ha. unfold fcolumn in Ha. apply in_map_iff in Ha. destruct Ha as (p & <- & Hp). split; [apply (nth_finite shape); auto|]. rewrite HX, <- coordinate_val. apply HB. exact Hp.
Qed.

Lemma box_mass : forall T shape (l : list (list double * double)) k len, sums T -> precise T -> Forall (fun m => finite_position shape (fst m) /\ weight (snd m)) l -> (lenZ l <= 2 ^ 40)%Z ->
  proper_side shape k len -> (forall m, In m l -> Rabs (coordinate k (real_position (fst m))) <= bpow radix2 20 * len) -> 0 < total snd (map real_mass l) ->
  exists r c, fcenter_of_mass T shape (map fst l) (map snd l) true = Ok r /\ at_faxis r k c /\ 0 <= B2R c <= len * (1 + bpow radix2 (-51)).
Proof.
  intros T shape l k len HT HP HF HL (x & EX & [FX VX] & HS) HB HW. rewrite Forall_forall in HF.
  assert (HX : val x = len). { assert (Q : Rabs (B2R x - len) = 0) by (pose proof (Rabs_pos (B2R x - len)); lra). destruct (Req_dec (B2R x - len) 0) as [Q0|Q0]; [unfold val; lra|apply Rabs_pos_lt in Q0; lra]. }
  assert (KK : (k < length shape)%nat) by (apply nth_error_Some; rewrite EX; discriminate).
  assert (E51 : bpow radix2 (-51) = 4 * u) by (replace (-51)%Z with (2 + -53)%Z by lia; rewrite bpow_plus; reflexivity). rewrite E51.
  assert (HN : l <> []) by (intros ->; cbn in HW; lra).
  destruct (fmass_runs T shape l true k x HN (fun p Hp => proj1 (proj1 (HF p Hp))) EX) as (r & ER & EN).
  set (xs := map (fun m : list double * double => nth k (fst m) dzero) l) in *.
  assert (R : finite (faxis_center T true (faverage_of T (map snd l)) x xs) /\ 0 <= val (faxis_center T true (faverage_of T (map snd l)) x xs) <= val x * (1 + 4 * u)).
  { apply (axis_range T (faverage_of T (map snd l)) x xs HP).
    - intros g HG. set (l' := map (fun m => (g (nth k (fst m) dzero), snd m)) l).
      assert (E1 : map snd l = map snd l') by (unfold l'; rewrite map_map; reflexivity).
      assert (E2 : map g xs = map fst l') by (unfold l', xs; rewrite !map_map; reflexivity). rewrite E1, E2.
      apply (average_error T l' 1 HT).
      + apply Forall_forall. intros y Hy. unfold l' in Hy. apply in_map_iff in Hy. destruct Hy as (m & <- & Hm). split; [apply HG; unfold xs; apply (in_map (fun m : list double * double => nth k (fst m) dzero)); exact Hm|apply HF; exact Hm].
      + unfold l', lenZ in *. rewrite map_length. exact HL.
      + unfold l'. rewrite total_map. rewrite total_map in HW. exact HW.
      + change 1 with (bpow radix2 0). split; apply bpow_le; lia.
      + intros y Hy. unfold l' in Hy. apply in_map_iff in Hy. destruct Hy as (m & <- & Hm). apply HG. unfold xs. apply (in_map (fun m : list double * double => nth k (fst m) dzero)). exact Hm.
    - exact FX.
    - rewrite HX. exact HS.
    - intros a Ha. unfold xs in Ha. apply in_map_iff in Ha. destruct Ha as (m & <- & Hm). split; [apply (nth_finite shape); [apply HF; exact Hm|exact KK]|].
      rewrite HX, <- coordinate_val. apply HB. exact Hm. }
  rewrite HX in R. destruct R as [R1 R2]. exists r. eexists. split; [exact ER|]. split; [split; [exact EN|exact R1]|exact R2].
Qed.

(** ** Labels *)

Lemma pixels_fit : forall shape pixels p, In p (pixels_of shape pixels) -> length p = length (map dz shape).
Proof. intros shape pixels p Hp. apply in_map_iff in Hp. destruct Hp as (q & <- & _). rewrite !map_length. apply coords_length. Qed.

Lemma fto_double_hits : forall shape labels name, fto_double (where_equal shape labels name) = pixels_of shape (hits labels name).
Proof. intros. unfold fto_double, pixels_of. rewrite where_equal_hits, map_map. reflexivity. Qed.

Lemma flabels_rows : forall T asrt shape labels names per, shape <> [] -> lenZ labels = zprod shape ->
  exists rows, flabels_centers T asrt shape labels names per = Ok rows /\
    Forall2 (fun name row => exists pixels, carries shape labels name pixels /\
               fcenter T (map dz shape) (pixels_of shape pixels) per = Ok row) names rows.
Proof.
  intros T asrt shape labels names per N L. unfold flabels_centers.
  replace (assertb asrt (Nat.ltb 0 (length shape))) with (Ok tt) by (destruct asrt, shape; cbn; congruence).
  cbn [bind]. apply mapM_all. intros name _. rewrite fto_double_hits.
  set (ps := pixels_of shape (hits labels name)).
  assert (E : exists r, fcenter T (map dz shape) ps per = Ok r /\ (fno_positions (map dz shape) ps = true -> r = map (fun _ => dzero) (map dz shape))).
  { unfold fcenter. assert (FIT : frows_fit (map dz shape) ps = true) by (apply frows_fit_iff; apply (pixels_fit shape (hits labels name))). rewrite FIT. cbn [negb].
    destruct (fno_positions (map dz shape) ps); eexists; (split; [reflexivity|]); [reflexivity|discriminate]. }
  destruct E as (r & E & Z). exists r. split.
  - destruct (fno_positions (map dz shape) ps); [|exact E]. rewrite (Z eq_refl), map_map. reflexivity.
  - exists (hits labels name). split; [apply hits_carries; exact L|exact E].
Qed.

Lemma fweights_ok : forall shape labels name (w : list double), Forall (fun n => (0 <= n)%Z) shape ->
  lenZ labels = zprod shape -> lenZ w = zprod shape ->
  fweights_at shape w (where_equal shape labels name) = Ok (map (fun p => nth (Z.to_nat p) w dzero) (hits labels name)).
Proof.
  intros shape labels name w F L LW. rewrite where_equal_hits. unfold fweights_at.
  assert (H : forall p, In p (hits labels name) -> (0 <= p < zprod shape)%Z).
  { intros p Hp. apply hits_In in Hp. lia. }
  induction (hits labels name) as [|p t IH]; [reflexivity|]. cbn [map mapM].
  assert (Hp : pixel shape p) by (apply H; now left).
  assert (P : Forall (fun n => (0 < n)%Z) shape) by (apply zprod_zero; auto; unfold pixel in Hp; lia).
  rewrite dot_strides, ravel_coords by (auto; now apply coords_inside).
  rewrite (vget_nth w p dzero) by (unfold pixel in Hp; lia). cbn [bind].
  rewrite IH by (intros; apply H; now right). reflexivity.
Qed.

Lemma flabels_mass_rows : forall T asrt shape labels w names per, shape <> [] -> Forall (fun n => (0 <= n)%Z) shape ->
  lenZ labels = zprod shape -> lenZ w = zprod shape ->
  exists rows, flabels_centers_of_mass T asrt shape labels shape w names per = Ok rows /\
    Forall2 (fun name row => exists pixels, carries shape labels name pixels /\
               fcenter_of_mass T (map dz shape) (pixels_of shape pixels) (map (fun p => nth (Z.to_nat p) w dzero) pixels) per = Ok row) names rows.
Proof.
  intros T asrt shape labels w names per N F L LW. unfold flabels_centers_of_mass.
  assert (EQ : eqbl shape shape = true) by (clear; induction shape; cbn; rewrite ?Z.eqb_refl; auto).
  rewrite EQ. replace (assertb asrt true) with (Ok tt) by (destruct asrt; reflexivity).
  replace (assertb asrt (Nat.ltb 0 (length shape))) with (Ok tt) by (destruct asrt, shape; cbn; congruence).
  cbn [bind]. apply mapM_all. intros name _. rewrite fto_double_hits, fweights_ok by assumption. cbn [bind].
  set (h := hits labels name). set (ps := pixels_of shape h). set (ws := map (fun p => nth (Z.to_nat p) w dzero) h).
  assert (E : exists r, fcenter_of_mass T (map dz shape) ps ws per = Ok r /\ (fno_positions (map dz shape) ps = true -> r = map (fun _ => dzero) (map dz shape))).
  { unfold fcenter_of_mass. assert (FIT : frows_fit (map dz shape) ps = true) by (apply frows_fit_iff; apply (pixels_fit shape h)). rewrite FIT. cbn [negb].
    destruct (fno_positions (map dz shape) ps); [eexists; split; reflexivity|]. unfold ws, ps, pixels_of. rewrite !map_length, Nat.eqb_refl. cbn [negb]. eexists. split; [reflexivity|discriminate]. }
  destruct E as (r & E & Z). exists r. split.
  - destruct (fno_positions (map dz shape) ps); [|exact E]. rewrite (Z eq_refl), map_map. reflexivity.
  - exists h. split; [apply hits_carries; exact L|exact E].
Qed.

Lemma forall2_weaken : forall {A B} (P Q : A -> B -> Prop) l l', (forall a b, P a b -> Q a b) -> Forall2 P l l' -> Forall2 Q l l'.
Proof. intros A B P Q l l' H F. induction F; constructor; auto. Qed.

Lemma nth_coords : forall shape p k, pixel shape p -> Forall (fun n => (0 <= n)%Z) shape -> (k < length shape)%nat -> (0 <= nth k (coords shape p) 0 < nth k shape 0)%Z.
Proof.
  intros shape p k HP HF HK. assert (P : Forall (fun n => (0 < n)%Z) shape) by (apply zprod_zero; auto; unfold pixel in HP; lia).
  pose proof (coords_inside shape p P HP) as I. clear HP HF. revert I P k HK. generalize (coords shape p) as c. induction shape as [|n shape IH]; intros c I P k HK; [cbn in HK; lia|].
  destruct c as [|x c]; cbn in I; [destruct I|]. inversion P; subst. destruct k as [|k]; cbn; [apply I|]. apply IH; [apply I|assumption|cbn in HK; lia].
Qed.
Lemma nth_In_shape : forall (shape : list Z) k, (k < length shape)%nat -> In (nth k shape 0%Z) shape.
Proof. intros. apply nth_In. assumption. Qed.

Lemma carries_length : forall shape labels name l, carries shape labels name l -> (0 <= zprod shape)%Z -> (lenZ l <= zprod shape)%Z.
Proof.
  intros shape labels name l [N H] Z0. assert (I : incl l (map Z.of_nat (seq 0 (Z.to_nat (zprod shape))))).
  { intros p Hp. apply H in Hp. destruct Hp as [[P1 P2] _]. apply in_map_iff. exists (Z.to_nat p). split; [lia|]. apply in_seq. lia. }
  apply NoDup_incl_length in I; [|exact N]. rewrite map_length, seq_length in I. unfold lenZ. lia.
Qed.

Lemma zprod_nonneg : forall shape, Forall (fun n => (0 <= n)%Z) shape -> (0 <= zprod shape)%Z.
Proof. intros shape H. induction H; cbn; [lia|nia]. Qed.

(** Not periodic: the exact mean, correctly rounded. *)
Lemma labels_mean_rounded : forall T asrt shape labels names, sums T -> shape <> [] -> Forall (fun n => (0 <= n)%Z) shape -> lenZ labels = zprod shape ->
  (forall n, In n shape -> (zprod shape * n <= 2 ^ 53)%Z) ->
  exists rows, flabels_centers T asrt shape labels names false = Ok rows /\
    Forall2 (fun name row => forall pixels k, carries shape labels name pixels -> (k < length shape)%nat -> exists c, at_faxis row k c /\
      (pixels = [] -> B2R c = 0) /\
      (pixels <> [] -> nearest_double (total (coordinate k) (positions_of shape pixels) / INR (length pixels)) c)) names rows.
Proof.
  intros T asrt shape labels names HT HN HF HL HB. destruct (flabels_rows T asrt shape labels names false HN HL) as (rows & E & R).
  exists rows. split; [exact E|]. revert R. apply forall2_weaken. clear E rows.
  intros name row (px & C & ER) pixels k C' HK. pose proof (carries_perm _ _ _ _ _ C' C) as P.
  pose proof (zprod_nonneg shape HF) as Z0.
  destruct px as [|p0 px0].
  - apply Permutation_sym, Permutation_nil in P. subst pixels. exists dzero. split; [|split; [reflexivity|congruence]].
    split; [|reflexivity]. unfold pixels_of in ER. cbn [map] in ER. unfold fcenter in ER. cbn [frows_fit forallb negb] in ER.
    assert (NP : fno_positions (map dz shape) [] = true) by (destruct shape; reflexivity). rewrite NP in ER. injection ER as <-.
    rewrite map_map. rewrite (nth_error_map (fun _ : Z => dzero)). destruct (nth_error shape k) eqn:EK; [reflexivity|apply nth_error_None in EK; lia].
  - set (px := p0 :: px0) in *. pose proof (carries_length _ _ _ _ C Z0) as CL.
    assert (PX : forall p, In p px -> pixel shape p) by (intros p Hp; apply (proj2 C) in Hp; apply Hp).
    destruct (mean_integers T (map dz shape) (map (coords shape) px) k (nth k shape 0%Z) HT) as (r & c & E1 & E2 & E3 & _).
    + discriminate.
    + intros p Hp. apply in_map_iff in Hp. destruct Hp as (q & <- & _). rewrite map_length. apply coords_length.
    + rewrite map_length. exact HK.
    + intros p Hp. apply in_map_iff in Hp. destruct Hp as (q & <- & Hq). pose proof (nth_coords shape q k (PX q Hq) HF HK). lia.
    + pose proof (HB _ (nth_In_shape shape k HK)) as HB'. unfold lenZ in *. rewrite map_length.
      pose proof (nth_coords shape p0 k (PX p0 (or_introl eq_refl)) HF HK). nia.
    + pose proof (HB _ (nth_In_shape shape k HK)) as HB'. unfold lenZ in *. rewrite map_length.
      pose proof (nth_coords shape p0 k (PX p0 (or_introl eq_refl)) HF HK). nia.
    + replace (map (map dz) (map (coords shape) px)) with (pixels_of shape px) in E1 by (unfold pixels_of; rewrite map_map; reflexivity).
      rewrite ER in E1. injection E1 as <-. exists c. split; [exact E2|]. split; [intros ->; apply Permutation_nil in P; discriminate|]. intros _.
      rewrite (Permutation_length P). rewrite (total_perm (coordinate k) _ (positions_of shape px)) by (apply Permutation_map; exact P).
      rewrite map_length, total_map in E3. unfold positions_of. rewrite total_map.
      rewrite (total_ext _ (fun a => IZR (nth k (coords shape a) 0%Z))); [exact E3|]. intros a _. unfold coordinate. change 0 with (IZR 0). apply map_nth.
Qed.

Lemma sum_perm : forall len k (l l' : list mass), Permutation l l' -> sum_cos len k l = sum_cos len k l' /\ sum_sin len k l = sum_sin len k l' /\ total snd l = total snd l'.
Proof. intros. unfold sum_cos, sum_sin. repeat split; apply total_perm; assumption. Qed.

Lemma dz_side : forall n, (1 <= n <= 2 ^ 40)%Z -> within 0 (IZR n) (dz n) /\ bpow radix2 (-100) <= IZR n <= bpow radix2 100.
Proof.
  intros n H. destruct (dz_value n) as [F E]; [lia|]. split; [split; [exact F|]; unfold val in E; rewrite E, Rminus_diag_eq, Rabs_R0 by reflexivity; lra|].
  split; [apply Rle_trans with 1; [change 1 with (bpow radix2 0); apply bpow_le; lia|apply (IZR_le 1); lia]|].
  apply Rle_trans with (IZR (2 ^ 40)); [apply IZR_le; lia|]. rewrite IZR_pow by lia. apply bpow_le. lia.
Qed.

(** Periodic: the circular mean up to rounding, in the box up to rounding. *)
Lemma labels_circular : forall T asrt shape labels names, sums T -> precise T -> shape <> [] -> Forall (fun n => (0 <= n)%Z) shape -> lenZ labels = zprod shape ->
  (zprod shape <= 2 ^ 40)%Z -> Forall (fun n => (n <= 2 ^ 40)%Z) shape ->
  exists rows, flabels_centers T asrt shape labels names true = Ok rows /\
    Forall2 (fun name row => forall pixels k, carries shape labels name pixels -> pixels <> [] -> (k < length shape)%nat ->
      let l := unit_mass (positions_of shape pixels) in let len := IZR (nth k shape 0%Z) in let b := (1 + INR (length pixels)) * bpow radix2 (-46) in
      exists c, at_faxis row k c /\ 0 <= B2R c <= len * (1 + bpow radix2 (-51)) /\
        (4 * b <= concentration len k l -> near_circular_mean (len * (b / concentration len k l)) len k l c)) names rows.
Proof.
  intros T asrt shape labels names HT HP HN HF HL HB HB'. destruct (flabels_rows T asrt shape labels names true HN HL) as (rows & E & R).
  exists rows. split; [exact E|]. revert R. apply forall2_weaken. clear E rows.
  intros name row (px & C & ER) pixels k C' NE HK l len b. pose proof (carries_perm _ _ _ _ _ C' C) as P.
  pose proof (zprod_nonneg shape HF) as Z0. pose proof (carries_length _ _ _ _ C Z0) as CL.
  assert (NE' : px <> []) by (intros ->; apply Permutation_sym, Permutation_nil in P; congruence).
  assert (PX : forall p, In p px -> pixel shape p) by (intros p Hp; apply (proj2 C) in Hp; apply Hp).
  assert (CO : forall p, In p px -> (0 <= nth k (coords shape p) 0 < nth k shape 0)%Z) by (intros p Hp; apply nth_coords; auto).
  assert (RP : map real_position (pixels_of shape px) = positions_of shape px).
  { unfold pixels_of, positions_of. rewrite map_map. apply map_ext_in. intros p Hp. unfold real_position. rewrite map_map. apply map_ext_in. intros z Hz.
    apply (In_nth _ _ 0%Z) in Hz. destruct Hz as (i & Hi & <-). rewrite coords_length in Hi. pose proof (nth_coords shape p i (PX p Hp) HF Hi).
    pose proof (proj1 (Forall_forall _ _) HB' _ (nth_In_shape shape i Hi)). apply (dz_value (nth i (coords shape p) 0%Z)). cbv beta in *. lia. }
  assert (FP : Forall (finite_position (map dz shape)) (pixels_of shape px)).
  { apply Forall_forall. intros q Hq. split; [apply (pixels_fit shape px); exact Hq|]. apply in_map_iff in Hq. destruct Hq as (p & <- & Hp). apply Forall_forall. intros z Hz.
    apply in_map_iff in Hz. destruct Hz as (y & <- & Hy). apply (In_nth _ _ 0%Z) in Hy. destruct Hy as (i & Hi & <-). rewrite coords_length in Hi. pose proof (nth_coords shape p i (PX p Hp) HF Hi).
    pose proof (proj1 (Forall_forall _ _) HB' _ (nth_In_shape shape i Hi)). apply (dz_value (nth i (coords shape p) 0%Z)). cbv beta in *. lia. }
  assert (LN : (lenZ (pixels_of shape px) <= 2 ^ 40)%Z) by (unfold pixels_of, lenZ in *; rewrite map_length; lia).
  pose proof (proj1 (Forall_forall _ _) HB' _ (nth_In_shape shape k HK)) as NK. cbv beta in NK.
  assert (NK1 : (1 <= nth k shape 0)%Z) by (destruct px as [|p0 px0]; [congruence|]; pose proof (CO p0 (or_introl eq_refl)); lia).
  assert (PS : proper_side (map dz shape) k len).
  { exists (dz (nth k shape 0%Z)). split; [rewrite nth_error_map; rewrite (nth_error_nth' shape 0%Z HK); reflexivity|]. apply dz_side. lia. }
  assert (CB : forall q, In q (pixels_of shape px) -> Rabs (coordinate k (real_position q)) <= 1 * len).
  { intros q Hq. rewrite Rmult_1_l. apply in_map_iff in Hq. destruct Hq as (p & <- & Hp). rewrite coordinate_val. change dzero with (dz 0). rewrite map_nth.
    pose proof (CO p Hp) as Q. rewrite (proj2 (dz_value (nth k (coords shape p) 0%Z) ltac:(lia))). rewrite Rabs_pos_eq by (apply (IZR_le 0); lia). apply IZR_le. lia. }
  assert (LP : 0 < len) by (apply (IZR_lt 0); lia).
  destruct (box_center T (map dz shape) (pixels_of shape px) k len true row HT HP FP LN PS) as (c & AC & BC); [|reflexivity|exact ER|].
  { intros q Hq. apply Rle_trans with (1 := CB q Hq). apply Rmult_le_compat_r; [lra|]. change 1 with (bpow radix2 0). apply bpow_le. lia. }
  exists c. split; [exact AC|]. split; [exact BC|]. intros HC.
  assert (PM : Permutation l (unit_mass (map real_position (pixels_of shape px)))) by (unfold l; rewrite RP; apply Permutation_map, Permutation_map; exact P).
  destruct (sum_perm len k _ _ PM) as (S1 & S2 & S3).
  assert (CE : concentration len k (unit_mass (map real_position (pixels_of shape px))) = concentration len k l) by (unfold concentration; rewrite S1, S2, S3; reflexivity).
  assert (NPX : pixels_of shape px <> []) by (destruct px; [congruence|discriminate]).
  pose proof (circle_center T (map dz shape) (pixels_of shape px) k len 1 HT HP NPX FP LN PS) as CC. cbv zeta in CC. rewrite CE in CC.
  assert (EL : INR (length (pixels_of shape px)) = INR (length pixels)) by (unfold pixels_of; rewrite map_length, (Permutation_length P); reflexivity). rewrite EL in CC. fold b in CC.
  destruct CC as (r & c' & ER' & AC' & NC); [split; [lra|]; change 1 with (bpow radix2 0); apply bpow_le; lia|exact CB|exact HC|].
  rewrite ER in ER'. injection ER' as <-. assert (c' = c) by (destruct AC, AC'; congruence). subst c'.
  intros c0 (rho & R0 & C1 & C2). apply NC. exists rho. rewrite <- S1, <- S2. auto.
Qed.

(** One weight per position. *)
Lemma fweights_match : forall T shape ps w per, shape <> [] -> ps <> [] -> (forall p, In p ps -> length p = length shape) ->
  length w <> length ps -> fcenter_of_mass T shape ps w per = Throw.
Proof.
  intros T shape ps w per NS NP F L. unfold fcenter_of_mass.
  assert (R : frows_fit shape ps = true) by (apply forallb_forall; intros p Hp; apply Nat.eqb_eq, F, Hp).
  rewrite R. cbn [negb]. destruct shape; [congruence|]. destruct ps; [congruence|]. cbn [fno_positions].
  apply Nat.eqb_neq in L. rewrite L. reflexivity.
Qed.
