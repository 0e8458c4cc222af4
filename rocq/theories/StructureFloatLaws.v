(** * StructureFloatLaws: symmetry and sign of rounded structure factors; integer samples *)

From Coq Require Import ZArith Reals List Bool Lia Lra Psatz.
From Flocq Require Import Core Relative BinarySingleNaN.
From Verif Require Import Base BaseLemmas Double SpecDouble DoubleProofs DoubleError CenterFloat SpecCenter CenterFloatSums.
From Verif Require Import Structure SpecStructure SpecStructureAll SpecError StructureProofs StructureProofs2 StructureTop StructureFloat SpecStructureFloat StructureFloatProofs StructureFloatTop.
Import ListNotations.
Open Scope Z_scope.

Local Notation eps := (bpow radix2 (-52)).
Local Notation rnd := (round radix2 (FLT_exp (-1074) 53) ZnearestE).

(** ** Symmetry *)

Lemma low_opposite : forall n k, 0 <= k < n -> low n (opposite n k) = low n k \/ nyquist n k.
Proof.
  intros n k H. unfold nyquist. destruct (Z.eq_dec k 0) as [->|N]; [left; rewrite opposite_0 by lia; reflexivity|].
  rewrite opposite_pos by lia. destruct (Z.eq_dec (2 * k) n) as [E|E]; [now right|left]. unfold low.
  destruct (2 * k <? n) eqn:C; destruct (2 * (n - k) <? n) eqn:D; lia.
Qed.

Lemma feven1 : forall P dt n start l, 1 <= n -> ffresh_structure [n] start -> l <> [] ->
  exists st, fadd_samples P start (fsamples1 dt n l) = Ok (Some st) /\
    forall k, 0 <= k < n -> fmean st [opposite n k] = fmean st [k].
Proof.
  intros P dt n start l Hn HF HL. destruct (fstructure1 P dt n start l Hn HF HL) as (st & E & _ & M).
  exists st. split; [exact E|]. intros k Hk. pose proof (opposite_range n k ltac:(lia)) as OR.
  destruct (Z.eq_dec (2 * k) n) as [Q|Q].
  - f_equal. f_equal. rewrite opposite_pos by lia. lia.
  - assert (Q' : 2 * opposite n k <> n) by (destruct (Z.eq_dec k 0) as [->|]; [rewrite opposite_0 by lia; lia|rewrite opposite_pos by lia; lia]).
    rewrite (proj1 (M k Hk) Q), (proj1 (M _ OR) Q').
    destruct (low_opposite n k Hk) as [-> | W]; [reflexivity|contradiction].
Qed.

Lemma feven2 : forall P dt n m start l, 1 <= n -> 1 <= m -> n mod 2 = m mod 2 -> ffresh_structure [n; m] start -> l <> [] ->
  exists st, fadd_samples P start (fsamples2 dt n m l) = Ok (Some st) /\
    forall i j, 0 < i < n -> 0 < j < m -> 2 * i < n /\ 2 * j < m \/ n < 2 * i /\ m < 2 * j ->
      fmean st [opposite n i; opposite m j] = fmean st [i; j].
Proof.
  intros P dt n m start l Hn Hm HP HF HL. destruct (fstructure2 P dt n m start l Hn Hm HP HF HL) as (st & E & _ & M).
  exists st. split; [exact E|]. intros i j Hi Hj Q.
  assert (Oi : 0 <= opposite n i < n) by (apply opposite_range; lia). assert (Oj : 0 <= opposite m j < m) by (apply opposite_range; lia).
  assert (Q' : same_half n m (opposite n i) (opposite m j)) by (unfold same_half; rewrite !opposite_pos by lia; lia).
  rewrite (proj1 (M i j ltac:(lia) ltac:(lia)) Q), (proj1 (M _ _ Oi Oj) Q').
  destruct (low_opposite n i ltac:(lia)) as [-> | W]; [|unfold nyquist in W; lia].
  destruct (low_opposite m j ltac:(lia)) as [-> | W]; [|unfold nyquist in W; lia]. reflexivity.
Qed.

(** ** Sign *)

Lemma rnd_nonneg : forall x, (0 <= x -> 0 <= rnd x)%R.
Proof. intros x H. apply round_ge_generic; [apply FLT_exp_valid; reflexivity|apply valid_rnd_N|apply generic_format_0|exact H]. Qed.

Lemma fold_nonneg : forall l M, (0 <= M <= bpow radix2 800)%R -> lenZ l <= 2 ^ 50 ->
  (forall x, In x l -> finite x /\ 0 <= val x <= M)%R ->
  (finite (fold_left dplus l dzero) /\ 0 <= val (fold_left dplus l dzero) <= 2 * (INR (length l) * M))%R.
Proof.
  intros l M HM. induction l as [|x l IH] using rev_ind; intros HL H.
  - cbn. split; [reflexivity|]. lra.
  - rewrite fold_left_app. cbn [fold_left]. unfold lenZ in HL. rewrite app_length in *. cbn [length] in *.
    destruct IH as [F [L U]]; [unfold lenZ; lia|intros; apply H; apply in_or_app; now left|].
    destruct (H x) as (Fx & X0 & X1); [apply in_or_app; right; now left|].
    assert (NL : (INR (length l) <= bpow radix2 50)%R) by (rewrite INR_IZR_INZ; change (bpow radix2 50) with (IZR (2 ^ 50)); apply IZR_le; lia).
    pose proof (pos_INR (length l)) as NP.
    assert (BB : (2 * (INR (length l) * M) + M <= bpow radix2 1000)%R).
    { apply Rle_trans with (bpow radix2 2 * (bpow radix2 50 * bpow radix2 800))%R; [|rewrite <- !bpow_plus; apply bpow_le; lia].
      change (bpow radix2 2) with 4%R. assert (INR (length l) * M <= bpow radix2 50 * bpow radix2 800)%R by (apply Rmult_le_compat; lra).
      assert (1 <= bpow radix2 50)%R by (change 1%R with (bpow radix2 0); apply bpow_le; lia).
      assert (1 * M <= bpow radix2 50 * bpow radix2 800)%R by (apply Rmult_le_compat; lra). lra. }
    set (S := fold_left dplus l dzero) in *.
    destruct (sum_of S x F Fx) as [FS ES]; [fold (val S) (val x); apply Rabs_le; lra|].
    split; [exact FS|]. split.
    + unfold val at 1. rewrite ES. apply rnd_nonneg. fold (val S) (val x). lra.
    + assert (FA : Forall finite (l ++ [x])) by (apply Forall_forall; intros v Hv; apply H; exact Hv).
      pose proof (adds_error (l ++ [x]) (dplus S x)) as AE.
      assert (AD : adds (l ++ [x]) (dplus S x)) by (pose proof (in_order_sums (l ++ [x])) as Q; cbn [t_sum in_order] in Q; rewrite fold_left_app in Q; exact Q).
      specialize (AE AD FA). unfold lenZ in AE. rewrite app_length in AE. cbn [length] in AE. specialize (AE HL).
      pose proof (total_bound val (l ++ [x]) M) as TB. rewrite app_length in TB. cbn [length] in TB.
      assert (TM : (total (fun v => Rabs (val v)) (l ++ [x]) <= INR (length l + 1) * M)%R).
      { apply TB. intros v Hv. destruct (H v Hv) as (_ & V0 & V1). rewrite Rabs_pos_eq; lra. }
      assert (I1 : INR (length l + 1) = (INR (length l) + 1)%R) by (rewrite plus_INR; reflexivity).
      destruct AE as [_ AE].
      { apply Rle_trans with (1 := TM). rewrite I1. apply Rle_trans with (bpow radix2 51 * bpow radix2 800)%R; [|rewrite <- bpow_plus; apply bpow_le; lia].
        apply Rmult_le_compat; try lra. change 51%Z with (1 + 50)%Z. rewrite bpow_plus. change (bpow radix2 1) with 2%R.
        assert (1 <= bpow radix2 50)%R by (change 1%R with (bpow radix2 0); apply bpow_le; lia). lra. }
      pose proof (total_abs val (l ++ [x])) as TA. apply Rabs_le_inv in AE. apply Rabs_le_inv in TA.
      assert (HE : (INR (length l + 1) * eps <= / 4)%R).
      { pose proof (length_real (l ++ [x])) as Q. unfold lenZ in Q. rewrite app_length in Q. cbn [length] in Q. exact (Q HL). }
      assert (T0 : (0 <= total (fun v => Rabs (val v)) (l ++ [x]))%R) by (apply CenterProofs.total_nonneg; intros; apply Rabs_pos).
      assert (INR (length l + 1) * eps * total (fun v => Rabs (val v)) (l ++ [x]) <= / 4 * total (fun v => Rabs (val v)) (l ++ [x]))%R by (apply Rmult_le_compat_r; lra).
      assert (0 <= INR (length l + 1) * M)%R by (apply Rmult_le_pos; [apply pos_INR|lra]). lra.
Qed.

Lemma fnonneg1 : forall P A n start l, product P -> (bpow radix2 (-400) <= A <= bpow radix2 390)%R -> 1 <= n <= 2 ^ 50 ->
  ffresh_structure [n] start -> l <> [] -> lenZ l <= 2 ^ 50 ->
  (forall s, In s l -> conjugates1 n (snd (fst s)) /\ forall k, 0 <= k < n -> right_up_to A 0 (fst (snd (fst s) k)) /\ right_up_to A 0 (snd (snd (fst s) k))) ->
  exists st, fadd_samples P start (fsamples1 Float n l) = Ok (Some st) /\
    forall k, 0 <= k < n -> ~ nyquist n k -> is_finite (fmean st [k]) = true /\ (0 <= B2R (fmean st [k]))%R.
Proof.
  intros P A n start l HP HA Hn HF HL HN H. destruct (fstructure1 P Float n start l ltac:(lia) HF HL) as (st & E & _ & M).
  exists st. split; [exact E|]. intros k Hk Q. rewrite (proj1 (M k Hk) Q). cbn [fcast].
  pose proof (low_range n k Hk) as LR. pose proof (opposite_range n (low n k) ltac:(lia)) as OR.
  pose proof (sized_moderate A HA) as MA. destruct (moderate_square A MA) as (A0 & AL & AU).
  destruct (dz_value n) as [Fz Vz]; [lia|]. assert (N1 : (1 <= IZR n)%R) by (apply IZR_le; lia).
  assert (I0 : (0 < / IZR n)%R) by (apply Rinv_0_lt_compat; lra).
  assert (A2 : (0 < A * A)%R) by nra.
  assert (EV : forall s, In s l -> (finite (ddiv (P (snd (fst s) (low n k)) (snd (fst s) (opposite n (low n k)))) (dz n)) /\
    0 <= val (ddiv (P (snd (fst s) (low n k)) (snd (fst s) (opposite n (low n k)))) (dz n)) <= 9 * (A * A))%R).
  { intros s Hs. destruct (H s Hs) as [CJ BD]. destruct (CJ _ LR) as [C1 C2].
    assert (SM : forall j, 0 <= j < n -> small A (snd (fst s) j)).
    { intros j Hj. destruct (BD j Hj) as [[F1 B1] [F2 B2]]. rewrite Rminus_0_r in B1, B2. repeat split; assumption. }
    set (x := snd (fst s) (low n k)) in *. set (y := snd (fst s) (opposite n (low n k))) in *.
    destruct (product_error P x y A HP MA (SM _ LR) (SM _ OR)) as [F PE].
    assert (NN : (0 <= val (P x y))%R).
    { apply (product_nonneg P x y A HP MA (SM _ LR) (SM _ OR)).
      - unfold val. rewrite C1. nra.
      - unfold val. rewrite C2. nra. }
    assert (RB : (Rabs (re x y) <= 2 * (A * A))%R).
    { destruct (SM _ LR) as (_ & _ & B1 & B2). destruct (SM _ OR) as (_ & _ & D1 & D2). fold x in B1, B2. fold y in D1, D2.
      unfold re, Rminus. apply Rle_trans with (1 := Rabs_triang _ _). rewrite Rabs_Ropp, !Rabs_mult.
      assert (Rabs (val (fst x)) * Rabs (val (fst y)) <= A * A)%R by (apply Rmult_le_compat; auto using Rabs_pos).
      assert (Rabs (val (snd x)) * Rabs (val (snd y)) <= A * A)%R by (apply Rmult_le_compat; auto using Rabs_pos). lra. }
    assert (E3 : (3 * eps * (A * A) <= 6 * (A * A))%R) by (rewrite eps_u; pose proof u_small; pose proof u_pos; nra).
    destruct (divided_error (P x y) (re x y) A (3 * eps * (A * A)) n F MA PE RB E3 Hn) as (F' & _ & B').
    split; [exact F'|]. split.
    - destruct (quotient_of (P x y) (dz n) F) as [_ EQ].
      + fold (val (dz n)). rewrite Vz. lra.
      + fold (val (P x y)) (val (dz n)). rewrite Vz. apply Rabs_le_inv in PE. apply Rabs_le_inv in RB. unfold Rdiv.
        rewrite Rabs_mult, (Rabs_pos_eq (/ IZR n)), (Rabs_pos_eq (val (P x y))) by lra.
        assert (/ IZR n <= 1)%R by (rewrite <- Rinv_1; apply Rinv_le; lra).
        apply Rle_trans with (8 * (A * A))%R.
        * assert (val (P x y) * / IZR n <= 8 * (A * A) * 1)%R by (apply Rmult_le_compat; lra). lra.
        * apply Rle_trans with (bpow radix2 3 * bpow radix2 800)%R; [change (bpow radix2 3) with 8%R; lra|rewrite <- bpow_plus; apply bpow_le; lia].
      + unfold val at 1. rewrite EQ. apply rnd_nonneg. fold (val (P x y)) (val (dz n)). rewrite Vz. apply Rmult_le_pos; lra.
    - apply Rabs_le_inv in B'. apply Rle_trans with (1 := proj2 B').
      assert (9 * (A * A) * / IZR n <= 9 * (A * A) * 1)%R by (apply Rmult_le_compat_l; [lra|rewrite <- Rinv_1; apply Rinv_le; lra]). unfold Rdiv. lra. }
  assert (M8 : (0 <= 9 * (A * A) <= bpow radix2 800)%R).
  { split; [lra|]. apply Rle_trans with (bpow radix2 4 * (bpow radix2 390 * bpow radix2 390))%R; [|rewrite <- !bpow_plus; apply bpow_le; lia].
    change (bpow radix2 4) with 16%R. apply Rmult_le_compat; try lra. apply Rmult_le_compat; lra. }
  set (xs := map (fun s => ddiv (P (snd (fst s) (low n k)) (snd (fst s) (opposite n (low n k)))) (dz n)) l).
  assert (XE : forall x, In x xs -> (finite x /\ 0 <= val x <= 9 * (A * A))%R) by (intros x Hx; apply in_map_iff in Hx; destruct Hx as (s & <- & Hs); auto).
  assert (XL : length xs = length l) by apply map_length.
  destruct (fold_nonneg xs (9 * (A * A)) M8) as [FS [S0 S1]]; [unfold lenZ; rewrite XL; exact HN|exact XE|].
  destruct (dz_value (lenZ l)) as [Fl Vl]; [unfold lenZ in *; lia|].
  destruct (nonempty l HL) as [_ L1]. assert (L1r : (1 <= IZR (lenZ l))%R) by (apply IZR_le; exact L1).
  set (S := fold_left dplus xs dzero) in *.
  assert (IL : (0 < / IZR (lenZ l))%R) by (apply Rinv_0_lt_compat; lra).
  destruct (quotient_of S (dz (lenZ l)) FS) as [FQ EQ].
  + fold (val (dz (lenZ l))). rewrite Vl. lra.
  + fold (val S) (val (dz (lenZ l))). rewrite Vl. unfold Rdiv. rewrite Rabs_mult, (Rabs_pos_eq (/ _)), (Rabs_pos_eq (val S)) by lra.
    apply Rle_trans with (val S * 1)%R; [apply Rmult_le_compat_l; [lra|rewrite <- Rinv_1; apply Rinv_le; lra]|]. rewrite XL in S1.
    assert (NL : (INR (length l) <= bpow radix2 50)%R) by (rewrite INR_IZR_INZ; change (bpow radix2 50) with (IZR (2 ^ 50)); apply IZR_le; exact HN).
    pose proof (pos_INR (length l)).
    apply Rle_trans with (bpow radix2 1 * (bpow radix2 50 * bpow radix2 800))%R; [|rewrite <- !bpow_plus; apply bpow_le; lia].
    change (bpow radix2 1) with 2%R. assert (INR (length l) * (9 * (A * A)) <= bpow radix2 50 * bpow radix2 800)%R by (apply Rmult_le_compat; lra). lra.
  + split; [exact FQ|]. rewrite EQ. apply rnd_nonneg. fold (val S) (val (dz (lenZ l))). rewrite Vl. apply Rmult_le_pos; lra.
Qed.

(** ** A sample of three points, transformed with one rounding error *)

(** The largest double below one. *)
Definition below_one : double := @Bpred 53 1024 precision exponent done.
Definition one_point : Z -> R := fun j => if j =? 0 then 1%R else 0%R.
Definition its_transform : Z -> fcomplex := fun _ => (below_one, dzero).

Lemma below_one_val : is_finite below_one = true /\ B2R below_one = (1 - bpow radix2 (-53))%R.
Proof.
  split; [vm_compute; reflexivity|]. rewrite <- SF2R_B2SF.
  replace (B2SF below_one) with (SpecFloat.S754_finite false 9007199254740991 (-53)) by (vm_compute; reflexivity).
  cbn [SF2R]. unfold F2R. cbn [Fnum Fexp cond_Zopp]. change (bpow radix2 (-53)) with (/ 9007199254740992)%R. lra.
Qed.

Lemma one_point_sum : forall f : Z -> R, sum_below 3 (fun j => one_point j * f j)%R = f 0.
Proof.
  intro f. unfold sum_below. change (zrange 0 3) with [0; 1; 2]. cbn [map fold_right]. unfold one_point. cbn [Z.eqb]. ring.
Qed.

Lemma one_point_angle : forall k, (2 * PI * (IZR 0 * IZR k / IZR 3) = 0)%R.
Proof. intro k. unfold Rdiv. ring. Qed.

Lemma one_point_power : forall k, power 3 one_point k = 1%R.
Proof. intro k. unfold power. rewrite !one_point_sum, one_point_angle, cos_0, sin_0. ring. Qed.

Lemma its_transform_close : transform1 (bpow radix2 (-53)) 3 one_point its_transform.
Proof.
  intros k _. rewrite !one_point_sum, one_point_angle, cos_0, sin_0. destruct below_one_val as [F V]. pose proof (bpow_ge_0 radix2 (-53)) as P.
  split; (split; [first [exact F|reflexivity]|]); cbn [its_transform fst snd].
  - rewrite V. apply Rabs_le. lra.
  - cbn [B2R dzero]. rewrite Ropp_0, Rminus_0_r, Rabs_R0. exact P.
Qed.

Lemma one_point_sized : sized1 2 (bpow radix2 (-53)) 3 one_point.
Proof.
  assert (H : (bpow radix2 (-53) <= 1)%R) by (change 1%R with (bpow radix2 0); apply bpow_le; lia).
  assert (H1 : (bpow radix2 (-400) <= bpow radix2 0)%R) by (apply bpow_le; lia). change (bpow radix2 0) with 1%R in H1.
  assert (H2 : (bpow radix2 1 <= bpow radix2 390)%R) by (apply bpow_le; lia). change (bpow radix2 1) with 2%R in H2.
  split; [lra|]. split; [apply bpow_ge_0|].
  unfold sum_below. change (zrange 0 3) with [0; 1; 2]. cbn [map fold_right]. unfold one_point. cbn [Z.eqb]. rewrite Rabs_R1, Rabs_R0. lra.
Qed.

Lemma its_transform_conjugates : conjugates1 3 its_transform.
Proof. intros k _. cbn. split; [reflexivity|]. ring. Qed.

Lemma plain_is_product : product plain_product.
Proof. intros x y. now left. Qed.

(** One unit in the last place of the transform, and the result is zero instead of 1/3. *)
Lemma fint_refuted : exists n u hat k, transform1 (bpow radix2 (-53)) n u hat /\ (forall j, 0 <= j < n -> exists z, u j = IZR z) /\
  0 <= k < n /\ ~ nyquist n k /\ power n u k = 1%R /\
  forall P junk, product P -> exists st st',
    fadd_samples P None [FSample1 Integer n hat junk] = Ok (Some st) /\ B2R (fmean st [k]) = 0%R /\
    fadd_samples P None [FSample1 Float n hat junk] = Ok (Some st') /\ (/ 4 <= B2R (fmean st' [k]) <= 1)%R.
Proof.
  exists 3, one_point, its_transform, 1. split; [apply its_transform_close|]. split.
  { intros j _. unfold one_point. destruct (j =? 0); [exists 1; reflexivity|exists 0; reflexivity]. }
  split; [lia|]. split; [unfold nyquist; lia|]. split; [apply one_point_power|]. intros P junk HP.
  destruct (fstructure1 P Integer 3 None [((one_point, its_transform), junk)] ltac:(lia) (or_introl eq_refl) ltac:(discriminate)) as (st & E & _ & M).
  destruct (fstructure1 P Float 3 None [((one_point, its_transform), junk)] ltac:(lia) (or_introl eq_refl) ltac:(discriminate)) as (st' & E' & _ & M').
  exists st, st'. split; [exact E|].
  assert (NQ : ~ nyquist 3 1) by (unfold nyquist; lia).
  rewrite (proj1 (M 1 ltac:(lia)) NQ), (proj1 (M' 1 ltac:(lia)) NQ). cbn [map snd fst]. unfold its_transform.
  assert (PV : P (below_one, dzero) (below_one, dzero) = dtimes below_one below_one).
  { destruct (HP (below_one, dzero) (below_one, dzero)) as [W|[W|W]]; rewrite W; apply B2SF_inj; vm_compute; reflexivity. }
  rewrite PV. split; [|split; [exact E'|]].
  - rewrite <- SF2R_B2SF. match goal with |- SF2R _ (B2SF ?x) = _ => replace (B2SF x) with (SpecFloat.S754_zero false) by (vm_compute; reflexivity) end. reflexivity.
  - rewrite <- SF2R_B2SF. match goal with |- context [B2SF ?x] => let v := eval vm_compute in (B2SF x) in replace (B2SF x) with v by (vm_compute; reflexivity) end.
    cbn [SF2R]. unfold F2R. cbn [Fnum Fexp cond_Zopp]. change (bpow radix2 (-54)) with (/ 18014398509481984)%R. lra.
Qed.
