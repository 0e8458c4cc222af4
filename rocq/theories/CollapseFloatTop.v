(** * CollapseFloatTop: the documented centers with IEEE 754 numbers (C133, proofs only) *)

From Coq Require Import ZArith List Bool Reals Lra Lia Psatz Permutation Sorted.
From Flocq Require Import Core BinarySingleNaN.
From Verif Require Import Base BaseLemmas SpecCluster Cluster ClusterGeom ClusterInv Center SpecCenter CenterProofs CenterTop CenterLabels SpecEnsemble Collapse SpecCollapse
  CollapseProofs CollapseMean Double SpecDouble DoubleProofs DoubleError CirclesFloat CenterFloat SpecCenterFloat CenterFloatSums CenterFloatTop CollapseFloat SpecCollapseFloat.
Import ListNotations.
Open Scope Z_scope.

Lemma fall_axes_length : forall T per avg ps shape k, length (fall_axes T per avg shape ps k) = length shape.
Proof. intros T per avg ps. induction shape as [|n s IH]; intros k; cbn; auto. Qed.

Lemma fcenter_length : forall T shape ps per r, fcenter T shape ps per = Ok r -> length r = length shape.
Proof.
  intros T shape ps per r H. unfold fcenter in H. destruct (negb (frows_fit shape ps)); [discriminate|].
  destruct (fno_positions shape ps); injection H as <-; [apply map_length|apply fall_axes_length].
Qed.

Lemma nearest_small : forall x, (0 <= x <= IZR (2 ^ 53))%R -> 0 <= ZnearestE x <= 2 ^ 53.
Proof.
  intros x [A B]. split.
  - apply Z.le_trans with (ZnearestE (IZR 0)); [rewrite (Zrnd_IZR ZnearestE 0); lia|]. apply Zrnd_le; [apply valid_rnd_N|exact A].
  - apply Z.le_trans with (ZnearestE (IZR (2 ^ 53))); [|rewrite (Zrnd_IZR ZnearestE (2 ^ 53)); lia]. apply Zrnd_le; [apply valid_rnd_N|exact B].
Qed.

Lemma frint_row : forall row, (forall k, (k < length row)%nat -> exists c, at_faxis row k c /\ (0 <= B2R c <= IZR (2 ^ 53))%R) ->
  exists x, mapM frint row = Ok x /\ length x = length row /\ forall k c, at_faxis row k c -> nth k x 0 = ZnearestE (B2R c).
Proof.
  induction row as [|a row IH]; intro H.
  - exists []. split; [reflexivity|split; [reflexivity|]]. intros [|k] c [C _]; discriminate.
  - destruct (H 0%nat ltac:(cbn; lia)) as (c & [C F] & B). cbn in C. injection C as ->.
    destruct IH as (x & E & L & V); [intros k K; apply (H (S k)); cbn; lia|].
    pose proof (nearest_small _ B) as NB.
    exists (ZnearestE (B2R c) :: x). split; [|split; [cbn; lia|]].
    + cbn [mapM]. unfold frint at 1. rewrite F. replace (- 2 ^ 63 <=? ZnearestE (B2R c)) with true by lia. replace (ZnearestE (B2R c) <? 2 ^ 63) with true by lia.
      cbn [andb bind]. rewrite E. reflexivity.
    + intros [|k] c' [C G]; [injection C as ->; reflexivity|]. cbn. apply V. split; assumption.
Qed.

Section Image.
Variables (T : trig) (asrt per : bool) (shape labels : list Z).
Hypothesis HS : shape <> [].
Hypothesis HF : Forall (fun n => 1 <= n) shape.
Hypothesis HL : lenZ labels = zprod shape.

(** A row whose numbers are, after rounding and clipping, those of the center. *)
Definition agrees (v : Z) (row : list double) : Prop :=
  length row = length shape /\ forall k, (k < length shape)%nat -> exists c, at_faxis row k c /\ (0 <= B2R c <= IZR (2 ^ 53))%R /\
    exists r, center_along per shape labels v k r /\ clip (nth k shape 0) (ZnearestE (B2R c)) = clip (nth k shape 0) (ZnearestE r).

Lemma agrees_index : forall v ps row frow, occurs shape labels v -> carries shape labels v ps ->
  center (map IZR shape) (positions_of shape ps) per = Ok row -> agrees v frow -> findex_of shape frow = index_of shape row.
Proof.
  intros v ps row frow O C E [LF AF]. destruct (row_numbers per shape labels HS HF HL v ps O C) as (row' & E' & L & A). assert (row' = row) by congruence. subst row'.
  destruct (rint_row row) as (x & EX & LX & VX); [rewrite L; exact A|].
  destruct (frint_row frow) as (y & EY & LY & VY); [rewrite LF; intros k K; destruct (AF k K) as (c & A1 & A2 & _); eauto|].
  unfold findex_of, index_of. rewrite EX, EY. cbn [bind]. f_equal.
  assert (LC : forall z, length z = length shape -> length (clip_all shape z) = length shape).
  { clear. induction shape as [|n s IH]; intros [|a z]; cbn; intros; try discriminate; auto. }
  apply nth_ext with (d := 0) (d' := 0); rewrite !LC by congruence; auto.
  intros k K. rewrite !clip_nth by congruence. destruct (AF k K) as (c & A1 & _ & r & R1 & R2). destruct (A k K) as (r' & AX).
  destruct (R1 ps C) as (row'' & E'' & AX'). assert (row'' = row) by congruence. subst row''. assert (r' = r) by (unfold at_axis in *; congruence). subst r'.
  rewrite (VY k c A1), (VX k r AX). exact R2.
Qed.

Lemma fcollapse_same : (exists rows, flabels_centers T asrt shape labels (names_of labels) per = Ok rows /\ Forall2 agrees (names_of labels) rows) ->
  fcollapse T asrt shape labels per = collapse asrt shape labels per.
Proof.
  intros (frows & EF & AF). unfold fcollapse, collapse. rewrite EF. destruct (labels_centers_ok asrt shape labels (names_of labels) per HS HL) as (rows & E & F). rewrite E. cbn [bind].
  assert (I : mapM (findex_of shape) frows = mapM (index_of shape) rows); [|rewrite I; reflexivity].
  assert (O : forall v, In v (names_of labels) -> occurs shape labels v) by (intros v V; apply (names_named shape labels HL) in V; apply V).
  clear E EF. revert frows AF. induction F as [|v row ns rows R F IH]; intros frows AF; inversion AF; subst; [reflexivity|]. cbn [mapM].
  pose proof (hits_carries shape labels v HL) as H. rewrite (agrees_index v _ row y (O v (or_introl eq_refl)) H (R _ H)) by assumption. rewrite (IH (fun w W => O w (or_intror W)) l') by assumption. reflexivity.
Qed.
End Image.

(** ** Not periodic *)
Local Notation rnd := (round radix2 (FLT_exp (-1074) 53) ZnearestE).

Lemma rnd_half_integer : forall m, Z.abs m <= 2 ^ 52 -> (rnd (IZR m * / 2) = IZR m * / 2)%R.
Proof.
  intros m H. apply round_generic; [apply valid_rnd_N|]. change (/ 2)%R with (bpow radix2 (-1)). change (IZR m * bpow radix2 (-1))%R with (F2R (Float radix2 m (-1))).
  apply generic_format_FLT. exists (Float radix2 m (-1)); [reflexivity| |cbn; lia]. cbn [Fnum]. change (radix_val radix2 ^ 53)%Z with (2 ^ 53). lia.
Qed.

Lemma nearest_quotient : forall s n, 0 <= s <= 2 ^ 51 -> 1 <= n <= 2 ^ 51 -> ZnearestE (rnd (IZR s / IZR n)) = ZnearestE (IZR s / IZR n).
Proof.
  intros s n HS HN. set (r := (IZR s / IZR n)%R). assert (N0 : (1 <= IZR n)%R) by (apply IZR_le; lia).
  assert (RN : (r * IZR n = IZR s)%R) by (unfold r; field; lra). set (z := ZnearestE r). pose proof (nearest_near r) as HZ. fold z in HZ.
  assert (D : (Rabs (r - IZR z) * IZR n = IZR (Z.abs (s - n * z)))%R).
  { rewrite abs_IZR, minus_IZR, mult_IZR, <- RN. rewrite <- (Rabs_pos_eq (IZR n)) at 1 by lra. rewrite <- Rabs_mult. f_equal. ring. }
  destruct (Z.eq_dec (2 * Z.abs (s - n * z)) n) as [TIE|NT].
  - (* halfway: a double *)
    assert (EH : exists m, r = (IZR m * / 2)%R /\ 0 <= m <= 2 ^ 52).
    { assert (R1 : (0 <= r)%R) by (apply Rmult_le_reg_r with (IZR n); [lra|rewrite RN, Rmult_0_l; apply (IZR_le 0); lia]).
      destruct (Z_le_gt_dec (n * z) s) as [L|L].
      - exists (2 * z + 1). split; [apply Rmult_eq_reg_r with (IZR n); [|lra]; rewrite RN; assert (E : 2 * s = n * (2 * z + 1)) by lia; apply (f_equal IZR) in E; rewrite !mult_IZR in E; lra|]. nia.
      - exists (2 * z - 1). split; [apply Rmult_eq_reg_r with (IZR n); [|lra]; rewrite RN; assert (E : 2 * s = n * (2 * z - 1)) by lia; apply (f_equal IZR) in E; rewrite !mult_IZR in E; lra|]. nia. }
    destruct EH as (m & EM & BM). rewrite EM, rnd_half_integer by lia. rewrite <- EM. reflexivity.
  - apply Znearest_imp. assert (L : 2 * Z.abs (s - n * z) <= n - 1).
    { assert (LE : 2 * Z.abs (s - n * z) <= n); [|lia]. apply le_IZR. rewrite mult_IZR, <- D. apply Rmult_le_compat_r with (r := IZR n) in HZ; lra. }
    apply IZR_le in L. rewrite mult_IZR, <- D, minus_IZR in L.
    pose proof (rnd_error r) as E. assert (R1 : (0 <= r)%R) by (apply Rmult_le_reg_r with (IZR n); [lra|rewrite RN, Rmult_0_l; apply (IZR_le 0); lia]). rewrite (Rabs_pos_eq r R1) in E.
    apply Rle_lt_trans with (Rabs (rnd r - r) + Rabs (r - IZR z))%R; [replace (rnd r - IZR z)%R with ((rnd r - r) + (r - IZR z))%R by ring; apply Rabs_triang|].
    apply Rmult_lt_reg_r with (IZR n); [lra|]. rewrite Rmult_plus_distr_r.
    assert (E2 : (Rabs (rnd r - r) * IZR n <= bpow radix2 (-53) * IZR s + bpow radix2 (-1075) * IZR n)%R).
    { apply Rle_trans with ((bpow radix2 (-53) * r + bpow radix2 (-1075)) * IZR n)%R; [apply Rmult_le_compat_r; lra|]. rewrite Rmult_plus_distr_r, Rmult_assoc, RN. lra. }
    assert (S1 : (IZR s <= bpow radix2 51)%R) by (change (bpow radix2 51) with (IZR (2 ^ 51)); apply IZR_le; lia).
    assert (N1 : (IZR n <= bpow radix2 51)%R) by (change (bpow radix2 51) with (IZR (2 ^ 51)); apply IZR_le; lia).
    assert (P1 : (bpow radix2 (-53) * IZR s <= / 4)%R).
    { apply Rle_trans with (bpow radix2 (-53) * bpow radix2 51)%R; [apply Rmult_le_compat_l; [apply bpow_ge_0|exact S1]|]. rewrite <- bpow_plus. cbn. lra. }
    assert (P2 : (bpow radix2 (-1075) * IZR n <= / 8)%R).
    { apply Rle_trans with (bpow radix2 (-1075) * bpow radix2 51)%R; [apply Rmult_le_compat_l; [apply bpow_ge_0|exact N1]|]. rewrite <- bpow_plus. apply Rle_trans with (bpow radix2 (-3)); [apply bpow_le; lia|cbn; lra]. }
    lra.
Qed.

Lemma forall2_both : forall {A B} (P Q : A -> B -> Prop) l m, Forall2 P l m -> Forall2 Q l m -> Forall2 (fun a b => P a b /\ Q a b) l m.
Proof. intros A B P Q l m H. induction H; intros H'; inversion H'; subst; constructor; auto. Qed.

Lemma forall2_in : forall {A B} (P Q : A -> B -> Prop) l m, Forall2 P l m -> (forall a b, In a l -> P a b -> Q a b) -> Forall2 Q l m.
Proof. intros A B P Q l m H. induction H; intros H'; constructor; [apply H'; [left|]; auto|apply IHForall2; intros; apply H'; [right|]; auto]. Qed.

Lemma not_periodic_same : forall T asrt shape labels, sums T -> shape <> [] -> Forall (fun n => 1 <= n) shape -> lenZ labels = zprod shape ->
  (forall n, In n shape -> zprod shape * n <= 2 ^ 51) -> fcollapse T asrt shape labels false = collapse asrt shape labels false.
Proof.
  intros T asrt shape labels HT HS HF HL HB. apply fcollapse_same; auto.
  assert (HF0 : Forall (fun n => 0 <= n) shape) by (eapply Forall_impl; [|exact HF]; cbn; lia).
  destruct (labels_mean_rounded T asrt shape labels (names_of labels) HT HS HF0 HL) as (rows & E & R); [intros n IN; specialize (HB n IN); lia|].
  destruct (flabels_rows T asrt shape labels (names_of labels) false HS HL) as (rows' & E' & R'). assert (rows' = rows) by congruence. subst rows'.
  exists rows. split; [exact E|]. eapply forall2_in; [exact (forall2_both _ _ _ _ R R')|]. clear R R' E E'.
  intros v row IN [R (px & C & ER)]. assert (O : occurs shape labels v) by (apply (names_named shape labels HL) in IN; apply IN).
  assert (NE : px <> []). { intros ->. destruct O as (p & P & V). apply (proj2 C p). split; assumption. }
  split; [apply fcenter_length in ER; rewrite map_length in ER; exact ER|].
  intros k K. destruct (R px k C K) as (c & A & _ & N). specialize (N NE). exists c. split; [exact A|].
  assert (K' : (k < length (map IZR shape))%nat) by now rewrite map_length.
  assert (NP : positions_of shape px <> []) by (destruct px; [congruence|discriminate]).
  destruct (center_mean (map IZR shape) (positions_of shape px) k (positions_fit _ _) NP K') as (row' & r & EC & _ & AX & SUM & _).
  assert (LP : length (positions_of shape px) = length px) by (unfold positions_of; apply map_length). rewrite LP in SUM.
  set (s := zsum (map (fun p => nth k (coords shape p) 0) px)).
  assert (ES : total (coordinate k) (positions_of shape px) = IZR s).
  { unfold s. rewrite zsum_real. unfold positions_of. rewrite total_map. apply total_ext. intros a _. unfold coordinate. change 0%R with (IZR 0). apply map_nth. }
  assert (CO : forall p, In p px -> 0 <= nth k (coords shape p) 0 < nth k shape 0) by (intros p Hp; apply nth_coords; auto; apply (proj2 C) in Hp; apply Hp).
  assert (Z0 : 0 <= zprod shape) by (apply zprod_nonneg; exact HF0). pose proof (carries_length _ _ _ _ C Z0) as CL.
  assert (L1 : 1 <= lenZ px) by (destruct px; [congruence|unfold lenZ; cbn [length]; lia]).
  pose proof (HB _ (nth_In_shape shape k K)) as HBk. assert (NK : 1 <= nth k shape 0) by (rewrite Forall_forall in HF; apply HF, nth_In_shape; exact K).
  assert (SB : 0 <= s <= lenZ px * nth k shape 0).
  { unfold s. clear -CO. induction px as [|p px IH]; [cbn; lia|]. cbn [map zsum]. specialize (IH (fun q Q => CO q (or_intror Q))). pose proof (CO p (or_introl eq_refl)).
    unfold lenZ in *. cbn [length]. lia. }
  assert (SM : 0 <= s <= 2 ^ 51) by nia. assert (LM : 1 <= lenZ px <= 2 ^ 51) by nia.
  assert (EN : INR (length px) = IZR (lenZ px)) by (unfold lenZ; apply INR_IZR_INZ).
  assert (ER' : r = (IZR s / IZR (lenZ px))%R).
  { rewrite ES, EN in SUM. rewrite <- SUM. field. apply (IZR_neq _ 0). lia. }
  destruct N as [FN VN]. rewrite ES, EN in VN.
  assert (RR : (0 <= IZR s / IZR (lenZ px) <= IZR (2 ^ 51))%R).
  { assert (P : (1 <= IZR (lenZ px))%R) by (apply (IZR_le 1); lia). assert (S0 : (0 <= IZR s <= IZR (2 ^ 51))%R) by (split; apply IZR_le; lia).
    split; [apply Rmult_le_reg_r with (IZR (lenZ px)); [lra|]; unfold Rdiv; rewrite Rmult_assoc, Rinv_l, Rmult_1_r by lra; lra|].
    apply Rmult_le_reg_r with (IZR (lenZ px)); [lra|]. unfold Rdiv. rewrite Rmult_assoc, Rinv_l, Rmult_1_r by lra. nra. }
  split; [|exists r; split].
  - rewrite VN. pose proof (rnd_error (IZR s / IZR (lenZ px))) as Q. rewrite (Rabs_pos_eq (IZR s / IZR (lenZ px))) in Q by lra. split.
    + apply Rle_trans with (rnd 0); [rewrite round_0; [lra|apply valid_rnd_N]|]. apply round_le; [apply FLT_exp_valid; reflexivity|apply valid_rnd_N|lra].
    + apply Rabs_le_inv in Q. assert (U : (bpow radix2 (-53) <= 1)%R) by (change 1%R with (bpow radix2 0); apply bpow_le; lia).
      assert (U2 : (bpow radix2 (-1075) <= 1)%R) by (change 1%R with (bpow radix2 0); apply bpow_le; lia).
      assert (IZR (2 ^ 51) * 2 + 1 <= IZR (2 ^ 53))%R by (rewrite <- mult_IZR, <- plus_IZR; apply IZR_le; lia). nra.
  - intros px' C'. exists row'. split; [|exact AX]. rewrite <- EC. apply center_perm, Permutation_map. eapply carries_perm; eauto.
  - f_equal. rewrite VN, ER'. apply nearest_quotient; assumption.
Qed.

(** ** Periodic *)
Lemma nearest_steady : forall c r d, (Rabs (c - r) <= d)%R -> (forall m : Z, (d < Rabs (r - (IZR m + / 2)))%R) -> ZnearestE c = ZnearestE r.
Proof.
  intros c r d H A. apply Znearest_imp. set (z := ZnearestE r). pose proof (nearest_near r) as HZ. fold z in HZ.
  pose proof (A z) as A1. pose proof (A (z - 1)%Z) as A2. rewrite minus_IZR in A2.
  apply Rabs_le_inv in HZ. apply Rabs_le_inv in H. apply Rabs_lt.
  rewrite (Rabs_left1 (r - (IZR z + / 2))) in A1 by lra. rewrite (Rabs_pos_eq (r - (IZR z - 1 + / 2))) in A2 by lra. lra.
Qed.

Lemma longer : forall t C S W, (0 <= W -> C * C + S * S <= W * W ->
  (1 * cos t + C) * (1 * cos t + C) + (1 * sin t + S) * (1 * sin t + S) <= (1 + W) * (1 + W))%R.
Proof.
  intros t C S W I2 I1. pose proof (sin2_cos2 t) as Q. unfold Rsqr in Q.
  assert (CS : (cos t * C + sin t * S <= W)%R).
  { assert (SQ : ((cos t * C + sin t * S) * (cos t * C + sin t * S) <= W * W)%R); [|apply Rnot_lt_le; intros L; nra].
    apply Rle_trans with (C * C + S * S)%R; [|exact I1].
    assert (ID : (C * C + S * S - (cos t * C + sin t * S) * (cos t * C + sin t * S) = (cos t * S - sin t * C) * (cos t * S - sin t * C) + (C * C + S * S) * (1 - (sin t * sin t + cos t * cos t)))%R) by ring.
    rewrite Q in ID. pose proof (Rle_0_sqr (cos t * S - sin t * C)) as P. unfold Rsqr in P. lra. }
  nra.
Qed.

Lemma concentration_one : forall len k ps, ps <> [] -> (concentration len k (unit_mass ps) <= 1)%R.
Proof.
  intros len k ps N. unfold concentration. set (l := unit_mass ps).
  assert (TP : (0 < total snd l)%R) by (apply unit_pos; exact N).
  assert (B : forall q : list mass, (forall m, In m q -> snd m = 1%R) -> (sum_cos len k q * sum_cos len k q + sum_sin len k q * sum_sin len k q <= total snd q * total snd q /\ 0 <= total snd q)%R).
  { induction q as [|m q IH]; intros H1; [cbn; lra|]. destruct (IH (fun x X => H1 x (or_intror X))) as [I1 I2]. unfold sum_cos, sum_sin in *. cbn [total]. rewrite (H1 m (or_introl eq_refl)).
    split; [apply longer; assumption|lra]. }
  destruct (B l) as [B1 B2].
  { intros m IN. apply in_map_iff in IN. destruct IN as (p & <- & _). reflexivity. }
  apply Rmult_le_reg_r with (total snd l); [exact TP|]. unfold Rdiv. rewrite Rmult_assoc, Rinv_l, Rmult_1_r, Rmult_1_l by lra.
  rewrite <- (sqrt_square (total snd l)) by lra. apply sqrt_le_1_alt. exact B1.
Qed.

Lemma periodic_same : forall T asrt shape labels, sums T -> precise T -> shape <> [] -> Forall (fun n => 1 <= n <= 2 ^ 40) shape -> lenZ labels = zprod shape ->
  zprod shape <= 2 ^ 40 -> (forall v, named shape labels v -> steady shape labels v) -> fcollapse T asrt shape labels true = collapse asrt shape labels true.
Proof.
  intros T asrt shape labels HT HP HS HF2 HL HB HST.
  assert (HF : Forall (fun n => 1 <= n) shape) by (eapply Forall_impl; [|exact HF2]; cbn; lia).
  assert (HF0 : Forall (fun n => 0 <= n) shape) by (eapply Forall_impl; [|exact HF]; cbn; lia).
  assert (HF40 : Forall (fun n => n <= 2 ^ 40) shape) by (eapply Forall_impl; [|exact HF2]; cbn; lia).
  apply fcollapse_same; auto.
  destruct (labels_circular T asrt shape labels (names_of labels) HT HP HS HF0 HL HB HF40) as (rows & E & R).
  destruct (flabels_rows T asrt shape labels (names_of labels) true HS HL) as (rows' & E' & R'). assert (rows' = rows) by congruence. subst rows'.
  exists rows. split; [exact E|]. eapply forall2_in; [exact (forall2_both _ _ _ _ R R')|]. clear R R' E E'.
  intros v row IN [R (px & C & ER)]. apply (names_named shape labels HL) in IN. pose proof (HST v IN) as ST. destruct IN as [O _].
  assert (NE : px <> []). { intros ->. destruct O as (p & P & V). apply (proj2 C p). split; assumption. }
  split; [apply fcenter_length in ER; rewrite map_length in ER; exact ER|].
  intros k K. destruct (R px k C NE K) as (c & A & BX & N). destruct (ST px k C K) as (CN & r & CA & [U1 U2]). specialize (N CN). exists c. split; [exact A|].
  assert (NK : 1 <= nth k shape 0 <= 2 ^ 40) by (rewrite Forall_forall in HF2; apply HF2, nth_In_shape; exact K).
  assert (LK : (1 <= IZR (nth k shape 0%Z) <= IZR (2 ^ 40))%R) by (split; apply IZR_le; lia).
  assert (T51 : (bpow radix2 (-51) <= / 1000)%R) by (apply Rle_trans with (bpow radix2 (-10)); [apply bpow_le; lia|cbn; lra]).
  split.
  - split; [apply BX|]. assert (IZR (2 ^ 40) * 2 <= IZR (2 ^ 53))%R by (rewrite <- mult_IZR; apply IZR_le; lia). nra.
  - exists r. split; [exact CA|]. f_equal.
    assert (NP : positions_of shape px <> []) by (destruct px; [congruence|discriminate]).
    assert (CM : circular_mean (IZR (nth k shape 0%Z)) k (unit_mass (positions_of shape px)) r).
    { assert (K' : (k < length (map IZR shape))%nat) by now rewrite map_length.
      assert (SD : side (map IZR shape) k = IZR (nth k shape 0)) by (unfold side; change 0%R with (IZR 0); apply map_nth).
      destruct (center_circular (map IZR shape) (positions_of shape px) k (positions_fit _ _) NP K') as (row' & r' & EC & _ & AX & _ & CM); [rewrite SD; lra|].
      destruct (CA px C) as (row'' & EC' & AX'). assert (row'' = row') by congruence. subst row''. assert (r' = r) by (unfold at_axis in *; congruence). subst r'. rewrite SD in CM. exact CM. }
    destruct (N r CM) as (m & NM).
    change (IZR (nth k shape 0%Z) * ((1 + INR (length px)) * bpow radix2 (-46) / concentration (IZR (nth k shape 0%Z)) k (unit_mass (positions_of shape px))))%R with (drift shape px k) in NM.
    assert (D0 : (IZR (nth k shape 0%Z) * bpow radix2 (-51) <= drift shape px k)%R).
    { unfold drift. apply Rmult_le_compat_l; [lra|]. pose proof (concentration_one (IZR (nth k shape 0%Z)) k (positions_of shape px) NP) as C1. set (cc := concentration _ _ _) in *.
      assert (B46 : (0 < bpow radix2 (-46))%R) by apply bpow_gt_0. pose proof (pos_INR (length px)) as LI.
      assert (CP : (0 < cc)%R) by nra. apply Rmult_le_reg_r with cc; [exact CP|]. unfold Rdiv. rewrite (Rmult_assoc _ (/ cc) cc), Rinv_l, Rmult_1_r by lra.
      assert (B51 : (0 < bpow radix2 (-51) <= bpow radix2 (-46))%R) by (split; [apply bpow_gt_0|apply bpow_le; lia]). nra. }
    set (d := drift shape px k) in *. set (len := IZR (nth k shape 0%Z)) in *. assert (B0 : (0 < bpow radix2 (-51))%R) by apply bpow_gt_0.
    assert (M0 : m = 0).
    { apply Rabs_le_inv in NM. assert (CASE : (m <= -1 \/ m = 0 \/ 1 <= m)%Z) by lia. destruct CASE as [L|[L|L]]; [|exact L|]; exfalso; apply IZR_le in L; nra. }
    rewrite M0, Rmult_0_l, Rplus_0_r in NM. apply nearest_steady with (d := d); assumption.
Qed.

(** The image of centers is made, whatever the rounding. *)
Lemma periodic_made : forall T asrt shape labels, sums T -> precise T -> shape <> [] -> Forall (fun n => 1 <= n <= 2 ^ 40) shape -> lenZ labels = zprod shape ->
  zprod shape <= 2 ^ 40 -> exists ce, fcollapse T asrt shape labels true = Ok ce /\ lenZ ce = zprod shape /\
    forall p, pixel shape p -> zn ce p = 0 \/ named shape labels (zn ce p).
Proof.
  intros T asrt shape labels HT HP HS HF2 HL HB.
  assert (HF : Forall (fun n => 1 <= n) shape) by (eapply Forall_impl; [|exact HF2]; cbn; lia).
  assert (HF0 : Forall (fun n => 0 <= n) shape) by (eapply Forall_impl; [|exact HF]; cbn; lia).
  assert (HF40 : Forall (fun n => n <= 2 ^ 40) shape) by (eapply Forall_impl; [|exact HF2]; cbn; lia).
  destruct (labels_circular T asrt shape labels (names_of labels) HT HP HS HF0 HL HB HF40) as (rows & E & R).
  destruct (flabels_rows T asrt shape labels (names_of labels) true HS HL) as (rows' & E' & R'). assert (rows' = rows) by congruence. subst rows'.
  unfold fcollapse. rewrite E. cbn [bind].
  assert (T51 : (bpow radix2 (-51) <= / 1000)%R) by (apply Rle_trans with (bpow radix2 (-10)); [apply bpow_le; lia|cbn; lra]).
  assert (I : Forall2 (fun v row => exists i, findex_of shape row = Ok i /\ 0 <= i < zprod shape) (names_of labels) rows).
  { eapply forall2_in; [exact (forall2_both _ _ _ _ R R')|]. clear R R' E E'. intros v row IN [R (px & C & ER)]. apply (names_named shape labels HL) in IN. destruct IN as [O _].
    assert (NE : px <> []). { intros ->. destruct O as (p & P & V). apply (proj2 C p). split; assumption. }
    assert (LR : length row = length shape) by (apply fcenter_length in ER; rewrite map_length in ER; exact ER).
    destruct (frint_row row) as (x & EX & LX & _).
    - rewrite LR. intros k K. destruct (R px k C NE K) as (c & A & BX & _). exists c. split; [exact A|]. split; [apply BX|].
      assert (NK : 1 <= nth k shape 0 <= 2 ^ 40) by (rewrite Forall_forall in HF2; apply HF2, nth_In_shape; exact K).
      assert (LK : (1 <= IZR (nth k shape 0%Z) <= IZR (2 ^ 40))%R) by (split; apply IZR_le; lia).
      assert (IZR (2 ^ 40) * 2 <= IZR (2 ^ 53))%R by (rewrite <- mult_IZR; apply IZR_le; lia). nra.
    - pose proof (clip_inside shape x HF ltac:(congruence)) as IN'. exists (ravel shape (clip_all shape x)). unfold findex_of. rewrite EX. cbn [bind]. unfold ravel_multi_index.
      rewrite (proj2 (within_inside _ _) IN'), (dot_strides _ _ IN'). split; [reflexivity|]. apply ravel_range. exact IN'. }
  assert (X : exists index, mapM (findex_of shape) rows = Ok index /\ length index = length (names_of labels) /\ forall i, In i index -> 0 <= i < zprod shape).
  { clear -I. induction I as [|v row ns rows (i & EI & BI) F (index & EX & LX & BX)]; [exists []; split; [reflexivity|split; [reflexivity|intros i []]]|].
    exists (i :: index). cbn [mapM]. rewrite EI. cbn [bind]. rewrite EX. split; [reflexivity|split; [cbn; congruence|]]. intros j [<-|J]; auto. }
  destruct X as (index & EX & LX & BX). rewrite EX. cbn [bind].
  assert (LR : lenZ (repeat 0 (length labels)) = zprod shape) by (unfold lenZ; rewrite repeat_length; exact HL).
  destruct (assign_all index (names_of labels) (repeat 0 (length labels)) (names_sorted labels) LX) as (ce & EC & LC & A); [rewrite LR; exact BX|].
  exists ce. split; [exact EC|]. split; [congruence|]. intros p P. destruct (A p ltac:(rewrite LR; exact P)) as [A1 A2].
  assert (DEC : (exists w, In (p, w) (combine index (names_of labels)) /\ forall u, In (p, u) (combine index (names_of labels)) -> u <= w) \/ (forall w, ~ In (p, w) (combine index (names_of labels)))).
  { clear. induction (combine index (names_of labels)) as [|[a b] t [(w & W1 & W2)|N]].
    - right. intros w [].
    - left. destruct (Z.eq_dec a p) as [->|NE]; [|exists w; split; [now right|intros u [X|X]; [congruence|auto]]].
      destruct (Z_le_gt_dec b w) as [L|L]; [exists w|exists b]; (split; [|intros u [X|X]; [injection X as <-|specialize (W2 u X)]; lia]); [now right|now left].
    - destruct (Z.eq_dec a p) as [->|NE]; [left; exists b; split; [now left|]; intros u [X|X]; [injection X as <-; lia|destruct (N u X)]|right]. intros w [X|X]; [congruence|exact (N w X)]. }
  destruct DEC as [(w & W1 & W2)|N].
  - right. rewrite (A1 w W1 W2). apply (names_named shape labels HL). eapply in_combine_r; eauto.
  - left. rewrite (A2 N). apply zn_repeat.
Qed.
