(** * CirclesFloatProofs: circles in [double]s are those of exact arithmetic (proofs only) *)

From Coq Require Import ZArith QArith Qreals Reals Ratan Machin List Bool Lia Lra Psatz.
From Flocq Require Import Core BinarySingleNaN.
From Verif Require Import Base BaseLemmas SpecCluster Path Circles SpecCircles CirclesProofs Double SpecDouble DoubleProofs DoubleError
  PathFloat PathFloatProofs CirclesFloat SpecCirclesFloat.
Import ListNotations.
Open Scope Z_scope.

Local Notation rnd := (round radix2 (FLT_exp (-1074) 53) ZnearestE).

(** ** Conversions to integers *)

Lemma pow_pos : forall e, e < 0 -> 0 < 2 ^ (- e).
Proof. intros e H. apply Z.pow_pos_nonneg; lia. Qed.

Lemma B2R_neg : forall s m e H, e < 0 -> @B2R 53 1024 (B754_finite s m e H) = (IZR (if s then Zneg m else Zpos m) / IZR (2 ^ (- e)))%R.
Proof. intros s m e H He. cbn [B2R]. unfold F2R. cbn [Fnum Fexp]. rewrite p2n by lia. destruct s; reflexivity. Qed.

Lemma B2R_pos : forall s m e H, 0 <= e -> @B2R 53 1024 (B754_finite s m e H) = IZR ((if s then Zneg m else Zpos m) * 2 ^ e).
Proof. intros s m e H He. cbn [B2R]. unfold F2R. cbn [Fnum Fexp]. rewrite p2 by lia. rewrite mult_IZR. destruct s; reflexivity. Qed.

Lemma quotient_le : forall a b z, 0 < b -> ((IZR a / IZR b <= IZR z)%R <-> a <= z * b).
Proof.
  intros a b z Hb. assert (B : (0 < IZR b)%R) by (apply IZR_lt; lia). split; intros H.
  - apply le_IZR. rewrite mult_IZR. apply (Rmult_le_compat_r (IZR b)) in H; [|lra]. replace (IZR a / IZR b * IZR b)%R with (IZR a) in H by (field; lra). exact H.
  - apply IZR_le in H. rewrite mult_IZR in H. apply (Rmult_le_reg_r (IZR b)); [lra|]. replace (IZR a / IZR b * IZR b)%R with (IZR a) by (field; lra). exact H.
Qed.

Lemma le_quotient : forall a b z, 0 < b -> ((IZR z <= IZR a / IZR b)%R <-> z * b <= a).
Proof.
  intros a b z Hb. assert (B : (0 < IZR b)%R) by (apply IZR_lt; lia). split; intros H.
  - apply le_IZR. rewrite mult_IZR. apply (Rmult_le_compat_r (IZR b)) in H; [|lra]. replace (IZR a / IZR b * IZR b)%R with (IZR a) in H by (field; lra). exact H.
  - apply IZR_le in H. rewrite mult_IZR in H. apply (Rmult_le_reg_r (IZR b)); [lra|]. replace (IZR a / IZR b * IZR b)%R with (IZR a) by (field; lra). exact H.
Qed.

Lemma dceil_spec : forall x z, is_finite x = true -> (dceil x <= z <-> (B2R x <= IZR z)%R).
Proof.
  intros [s|s| |s m e H] z F; try discriminate.
  - cbn [dceil B2R]. split; intros A; [apply IZR_le; exact A|apply le_IZR; exact A].
  - cbn [dceil]. destruct (0 <=? e) eqn:E.
    + rewrite B2R_pos by lia. split; intros A.
      * apply IZR_le. destruct s; lia.
      * apply le_IZR in A. destruct s; lia.
    + rewrite B2R_neg by lia. pose proof (pow_pos e ltac:(lia)) as P. rewrite quotient_le by exact P.
      destruct s.
      * split; intros A.
        -- pose proof (Z.mul_div_le (Z.pos m) (2 ^ (- e)) P). nia.
        -- assert (- z <= Z.pos m / 2 ^ (- e)); [|lia]. apply Z.div_le_lower_bound; [exact P|]. nia.
      * split; intros A.
        -- pose proof (Z.mul_div_le (- Z.pos m) (2 ^ (- e)) P). nia.
        -- assert (- z <= - Z.pos m / 2 ^ (- e)); [|lia]. apply Z.div_le_lower_bound; [exact P|]. nia.
Qed.

Lemma dint_spec : forall x z, is_finite x = true -> (0 <= B2R x)%R -> (z <= dint x <-> (IZR z <= B2R x)%R).
Proof.
  intros [s|s| |s m e H] z F X; try discriminate.
  - cbn [dint B2R]. split; intros A; [apply IZR_le; exact A|apply le_IZR; exact A].
  - assert (s = false).
    { destruct s; [|reflexivity]. exfalso. assert ((B2R (B754_finite true m e H : double) < 0)%R); [|lra].
      cbn [B2R]. apply F2R_lt_0. cbn. lia. }
    subst s. cbn [dint]. destruct (0 <=? e) eqn:E.
    + rewrite B2R_pos by lia. split; intros A; [apply IZR_le; exact A|apply le_IZR; exact A].
    + rewrite B2R_neg by lia. pose proof (pow_pos e ltac:(lia)) as P. rewrite le_quotient by exact P. split; intros A.
      * pose proof (Z.mul_div_le (Z.pos m) (2 ^ (- e)) P). nia.
      * apply Z.div_le_lower_bound; [exact P|]. nia.
Qed.

(** ** Discs *)

Lemma fsquares_value : forall a b, Z.abs a <= 2 ^ 26 -> Z.abs b <= 2 ^ 26 ->
  is_finite (fsquares a b) = true /\ B2R (fsquares a b) = IZR (a * a + b * b).
Proof.
  intros a b A B.
  assert (A2 : Z.abs a <= 2 ^ 53) by lia. assert (B2 : Z.abs b <= 2 ^ 53) by lia.
  pose proof (exactly_dz a A2) as EA. pose proof (exactly_dz b B2) as EB.
  assert (SA : Z.abs a * Z.abs a <= 2 ^ 52) by nia. assert (SB : Z.abs b * Z.abs b <= 2 ^ 52) by nia.
  pose proof (exactly_times _ _ _ _ _ _ EA EA ltac:(lia)) as TA. pose proof (exactly_times _ _ _ _ _ _ EB EB ltac:(lia)) as TB.
  pose proof (exactly_plus _ _ _ _ _ _ TA TB ltac:(lia)) as T. apply exactly_value in T. destruct T as [T1 T2].
  split; [exact T1|]. unfold fsquares. rewrite T2. rewrite !zq_times, zq_plus. apply Q2R_zq.
Qed.

(** A double just above an integer. *)
Lemma just_above : forall k, 0 <= k < 2 ^ 26 -> exists y : double, is_finite y = true /\ B2R y = (IZR k + / IZR (2 ^ 27))%R.
Proof.
  intros k K. exists (ddiv (dz (k * 2 ^ 27 + 1)) (dz (2 ^ 27))).
  destruct (dz_value (k * 2 ^ 27 + 1) ltac:(lia)) as [F1 V1]. destruct (dz_value (2 ^ 27) ltac:(lia)) as [F2 V2].
  assert (Q : (IZR (k * 2 ^ 27 + 1) / IZR (2 ^ 27) = IZR k + / IZR (2 ^ 27))%R).
  { rewrite plus_IZR, mult_IZR. field. apply not_0_IZR. lia. }
  destruct (quotient_of (dz (k * 2 ^ 27 + 1)) (dz (2 ^ 27)) F1) as [F V].
  - rewrite V2. apply not_0_IZR. lia.
  - rewrite V1, V2, Q. rewrite Rabs_pos_eq.
    + apply Rle_trans with (IZR (2 ^ 27)); [|rewrite <- p2 by lia; apply bpow_le; lia].
      assert (/ IZR (2 ^ 27) <= 1)%R. { rewrite <- Rinv_1. apply Rinv_le; [lra|]. apply IZR_le. lia. }
      assert (IZR k + 1 <= IZR (2 ^ 27))%R by (rewrite <- plus_IZR; apply IZR_le; lia). lra.
    + assert (0 < / IZR (2 ^ 27))%R by (apply Rinv_0_lt_compat; apply IZR_lt; lia).
      assert (0 <= IZR k)%R by (apply IZR_le; lia). lra.
  - split; [exact F|]. rewrite V, V1, V2, <- Q. apply round_generic; [apply valid_rnd_N|].
    apply generic_format_FLT. exists (Float radix2 (k * 2 ^ 27 + 1) (-27)).
    + unfold F2R. cbn [Fnum Fexp]. rewrite p2n by lia. reflexivity.
    + cbn [Fnum]. change (radix2 ^ 53) with (2 ^ 53). lia.
    + cbn [Fexp]. lia.
Qed.

Lemma root_test : forall root s k, accurate root -> forall x, is_finite x = true -> B2R x = IZR s -> 0 <= s ->
  0 <= k < 2 ^ 26 -> (dceil (root x) <= k <-> s <= k * k).
Proof.
  intros root s k A x F V S K. destruct (A x F) as [G C]; [rewrite V; apply IZR_le; exact S|]. rewrite V in C.
  rewrite dceil_spec by exact G. destruct (dz_value k ltac:(lia)) as [Fk Vk].
  assert (K0 : (0 <= IZR k)%R) by (apply IZR_le; lia).
  split; intros H.
  - destruct (Z_le_gt_dec s (k * k)) as [L|L]; [exact L|exfalso].
    assert (M : (IZR k + / IZR (2 ^ 27) <= sqrt (IZR s))%R).
    { assert (P : (0 < / IZR (2 ^ 27))%R) by (apply Rinv_0_lt_compat; apply IZR_lt; lia).
      rewrite <- (sqrt_square (IZR k + / IZR (2 ^ 27))) by lra. apply sqrt_le_1_alt.
      assert (T : (IZR (k * k + 1) <= IZR s)%R) by (apply IZR_le; lia). rewrite plus_IZR, mult_IZR in T.
      assert (K1 : (IZR k + 1 <= IZR (2 ^ 26))%R) by (rewrite <- plus_IZR; apply IZR_le; lia).
      assert (E : (IZR (2 ^ 27) = 2 * IZR (2 ^ 26))%R) by (rewrite <- mult_IZR; f_equal).
      assert (R26 : (0 < IZR (2 ^ 26))%R) by (apply IZR_lt; lia).
      assert (I : (/ IZR (2 ^ 27) = / 2 * / IZR (2 ^ 26))%R) by (rewrite E; field; lra).
      set (q := (/ IZR (2 ^ 26))%R) in *. assert (Q : (q * IZR (2 ^ 26) = 1)%R) by (unfold q; field; lra).
      assert (Q0 : (0 < q)%R) by lra. assert (q <= 1)%R. { unfold q. rewrite <- Rinv_1. apply Rinv_le; [lra|]. apply IZR_le. lia. }
      rewrite I. apply Rle_trans with (IZR k * IZR k + 1)%R; [|exact T].
      assert (KQ : (q * IZR k <= 1 - q)%R) by nra. nra. }
    assert (P : (0 < / IZR (2 ^ 27))%R) by (apply Rinv_0_lt_compat; apply IZR_lt; lia).
    destruct C as [[C1 C2]|[C1 C2]]; [|lra].
    destruct (just_above k K) as (y & Fy & Vy). specialize (C2 y Fy). rewrite Vy in C2. specialize (C2 M). lra.
  - assert (M : (sqrt (IZR s) <= IZR k)%R).
    { rewrite <- (sqrt_square (IZR k)) by exact K0. apply sqrt_le_1_alt. rewrite <- mult_IZR. apply IZR_le. exact H. }
    destruct C as [[C1 C2]|[C1 C2]]; [lra|]. specialize (C2 (dz k) Fk). rewrite Vk in C2. apply C2. exact M.
Qed.

Lemma root_zero : forall root x, accurate root -> is_finite x = true -> B2R x = 0%R -> dceil (root x) = 0.
Proof.
  intros root x A F V. assert (D : dceil (root x) <= 0).
  { apply (root_test root 0 0 A x F V); lia. }
  destruct (A x F) as [G C]; [lra|]. rewrite V, sqrt_0 in C.
  assert (~ dceil (root x) <= -1); [|lia]. rewrite dceil_spec by exact G. intros H.
  destruct C as [[C1 C2]|[C1 C2]]; [|lra]. specialize (C2 dzero eq_refl). cbn [B2R dzero] in C2. specialize (C2 (Rle_refl 0)). lra.
Qed.

Lemma fdisc_disc : forall root r, accurate root -> r <= 2 ^ 26 -> fdisc root r = disc r.
Proof.
  intros root r A R. unfold fdisc, disc. apply filter_ext_in. intros [a b] I. cbn [fst snd].
  apply in_prod_iff in I. destruct I as [Ia Ib]. apply zrange_In in Ia. apply zrange_In in Ib.
  destruct (fsquares_value a b ltac:(lia) ltac:(lia)) as [F V].
  replace (a ^ 2 + b ^ 2) with (a * a + b * b) by (rewrite !Z.pow_2_r; reflexivity).
  destruct (Z.eq_dec r 0) as [E|E].
  - subst r. assert (a = 0) by lia. assert (b = 0) by lia. subst a b. rewrite (root_zero root _ A F V). reflexivity.
  - pose proof (root_test root (a * a + b * b) (r - 1) A _ F V ltac:(nia) ltac:(lia)) as T.
    assert (S : Z.sqrt_up (a * a + b * b) <= r - 1 <-> a * a + b * b <= (r - 1) * (r - 1)).
    { split; intros H.
      - pose proof (Z.sqrt_up_nonneg (a * a + b * b)). destruct (Z.eq_dec (a * a + b * b) 0) as [Z0|Z0]; [nia|].
        pose proof (Z.sqrt_up_spec (a * a + b * b) ltac:(nia)). nia.
      - apply Z.sqrt_up_le_square; nia. }
    apply Bool.eq_iff_eq_true. rewrite !Z.ltb_lt. lia.
Qed.

Lemma fdummy_exact : forall root asrt shape row col r per, accurate root -> (forall x, In x r -> x <= 2 ^ 26) ->
  fdummy_circles root asrt shape row col r per = dummy_circles asrt shape row col r per.
Proof.
  intros root asrt shape row col r per A R. unfold fdummy_circles, dummy_circles.
  destruct (assertb asrt (lenZ row =? lenZ col)); [|reflexivity..]. destruct (assertb asrt (lenZ row =? lenZ r)); [|reflexivity..].
  destruct (assertb asrt (lenZ shape =? 2)); [|reflexivity..]. cbn [bind].
  destruct shape as [|n [|m [|]]]; try reflexivity.
  assert (E : forall out i, fpaint_circle root per n m row col r out i = paint_circle per n m row col r out i).
  { intros out i. unfold fpaint_circle, paint_circle. destruct (tget row i); cbn [bind]; try reflexivity.
    destruct (tget col i); cbn [bind]; try reflexivity. destruct (tget r i) as [rad| | |] eqn:T; cbn [bind]; try reflexivity.
    rewrite fdisc_disc; [reflexivity|exact A|]. apply R. unfold tget in T.
    destruct (lenZ r =? 1); unfold vget in T; destruct (_ <? 0); try discriminate;
      destruct (nth_error r _) eqn:N; try discriminate; inversion T; subst; eapply nth_error_In; exact N. }
  generalize (repeat 0 (Z.to_nat (n * m))) as out. induction (zrange 0 (lenZ row)) as [|i l IH]; intros out; [reflexivity|].
  cbn [foldM]. rewrite E. destruct (paint_circle per n m row col r out i); cbn [bind]; auto.
Qed.

(** ** The root of IEEE 754 is accurate; far from the origin circles are too large *)

Lemma format_of : forall y : double, generic_format radix2 (FLT_exp (-1074) 53) (B2R y).
Proof. intros y. apply (generic_format_B2R 53 1024). Qed.

Lemma dsqrt_accurate : accurate dsqrt.
Proof.
  intros x F X. pose proof (Bsqrt_correct 53 1024 precision exponent mode_NE x) as (V & Fin & _).
  change (SpecFloat.fexp 53 1024) with (FLT_exp (-1074) 53) in V. change (round_mode mode_NE) with ZnearestE in V.
  split.
  - unfold dsqrt. rewrite Fin. destruct x as [s|s| |[|] m e H]; try discriminate; try reflexivity.
    exfalso. assert ((B2R (B754_finite true m e H : double) < 0)%R); [|lra]. cbn [B2R]. apply F2R_lt_0. cbn. lia.
  - unfold dsqrt. rewrite V. assert (VE : Valid_exp (FLT_exp (-1074) 53)) by (apply FLT_exp_valid; reflexivity).
    destruct (round_DN_or_UP radix2 (FLT_exp (-1074) 53) ZnearestE (sqrt (B2R x))) as [E|E]; rewrite E.
    + left. destruct (round_DN_pt radix2 (FLT_exp (-1074) 53) (sqrt (B2R x))) as (_ & P1 & P2). split; [exact P1|].
      intros y _ Y. apply P2; [apply format_of|exact Y].
    + right. destruct (round_UP_pt radix2 (FLT_exp (-1074) 53) (sqrt (B2R x))) as (_ & P1 & P2). split; [exact P1|].
      intros y _ Y. apply P2; [apply format_of|exact Y].
Qed.

Lemma paint_one : forall l x y o, (o = [0] \/ o = [1]) -> exists o',
  foldM (fun out d => paint_inside 1 1 out (x + fst d) (y + snd d)) l o = Ok o' /\ (o' = [0] \/ o' = [1]) /\
  (o = [1] -> o' = [1]) /\ (In (- x, - y) l -> o' = [1]) /\ (~ In (- x, - y) l -> o = o').
Proof.
  induction l as [|[a b] l IH]; intros x y o O.
  - exists o. cbn [foldM]. repeat split; auto. intros [].
  - cbn [foldM fst snd]. unfold paint_inside at 1.
    destruct ((0 <=? x + a) && (x + a <? 1) && (0 <=? y + b) && (y + b <? 1)) eqn:E.
    + assert (a = - x /\ b = - y) by lia. assert (P : vset o 0 1 = Ok [1]) by (destruct O; subst o; reflexivity).
      change ((if 1 =? 1 then 0 else (x + a) * 1) + (if 1 =? 1 then 0 else y + b)) with 0. rewrite P. cbn [bind].
      destruct (IH x y [1]) as (o' & E' & P1 & P2 & P3 & P4); [auto|]. exists o'. split; [exact E'|]. split; [exact P1|].
      split; [auto|]. split; [auto|]. intros N. destruct N. left. f_equal; lia.
    + cbn [bind]. destruct (IH x y o O) as (o' & E' & P1 & P2 & P3 & P4). exists o'. split; [exact E'|]. split; [exact P1|].
      split; [exact P2|]. split.
      * intros [H|H]; [|auto]. inversion H; subst. exfalso. lia.
      * intros N. apply P4. intros H. apply N. right. exact H.
Qed.

Lemma circles_too_large : 
  dummy_circles true [1; 1] [- 2 ^ 26] [-1] [2 ^ 26 + 1] false = Ok [0] /\
  fdummy_circles dsqrt true [1; 1] [- 2 ^ 26] [-1] [2 ^ 26 + 1] false = Ok [1].
Proof.
  set (r := 2 ^ 26 + 1). set (x := - 2 ^ 26).
  assert (I : In (- x, - (-1)) (list_prod (zrange (- r) (r + 1)) (zrange (- r) (r + 1)))).
  { apply in_prod_iff. split; apply zrange_In; unfold r, x; lia. }
  assert (D : (Z.sqrt_up ((- x) ^ 2 + (- (-1)) ^ 2) <? r) = false) by (vm_compute; reflexivity).
  assert (G : (dceil (dsqrt (fsquares (- x) (- (-1)))) <? r) = true) by (vm_compute; reflexivity).
  clearbody r x. split.
  - unfold dummy_circles. change (lenZ [x]) with 1. change (lenZ [-1]) with 1. change (lenZ [r]) with 1. change (lenZ [1; 1]) with 2.
    cbn [Z.eqb Pos.eqb assertb bind]. change (zrange 0 1) with [0]. change (repeat 0 (Z.to_nat (1 * 1))) with [0]. cbn [foldM].
    unfold paint_circle. change (tget [x] 0) with (Ok x). change (tget [-1] 0) with (Ok (-1)). change (tget [r] 0) with (Ok r). cbn [bind].
    destruct (paint_one (disc r) x (-1) [0]) as (o' & E & _ & _ & _ & P); [auto|]. rewrite E. cbn [bind]. rewrite <- P; [reflexivity|].
    unfold disc. intros H. apply filter_In in H. destruct H as [_ H]. cbn [fst snd] in H. rewrite D in H. discriminate.
  - unfold fdummy_circles. change (lenZ [x]) with 1. change (lenZ [-1]) with 1. change (lenZ [r]) with 1. change (lenZ [1; 1]) with 2.
    cbn [Z.eqb Pos.eqb assertb bind]. change (zrange 0 1) with [0]. change (repeat 0 (Z.to_nat (1 * 1))) with [0]. cbn [foldM].
    unfold fpaint_circle. change (tget [x] 0) with (Ok x). change (tget [-1] 0) with (Ok (-1)). change (tget [r] 0) with (Ok r). cbn [bind].
    destruct (paint_one (fdisc dsqrt r) x (-1) [0]) as (o' & E & _ & _ & P & _); [auto|]. rewrite E. cbn [bind]. rewrite P; [reflexivity|].
    unfold fdisc. apply filter_In. split; [exact I|]. cbn [fst snd]. exact G.
Qed.
