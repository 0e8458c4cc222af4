(** * DoubleProofs: double arithmetic is exact on integers up to 2^53 *)

From Coq Require Import ZArith Reals Lia Lra Bool List QArith Qcanon Qreals.
From Flocq Require Import Core BinarySingleNaN.
From Verif Require Import Double Ensemble.
Import ListNotations.
Open Scope Z_scope.

(** The exact rational [q] is an integer of at most [b], and [x] represents it. *)
Definition exactly (b : Z) (q : Qc) (x : double) : Prop :=
  is_finite x = true /\ exists z, q = zq z /\ B2R x = IZR z /\ Z.abs z <= b.

Lemma int_format : forall z, Z.abs z <= 2 ^ 53 -> generic_format radix2 (SpecFloat.fexp 53 1024) (IZR z).
Proof.
  intros z H. change (SpecFloat.fexp 53 1024) with (FLT_exp (-1074) 53).
  destruct (Z.eq_dec (Z.abs z) (2 ^ 53)) as [E|N].
  - assert (G : generic_format radix2 (FLT_exp (-1074) 53) (IZR (2 ^ 53))).
    { change (IZR (2 ^ 53)) with (bpow radix2 53). apply generic_format_bpow. unfold FLT_exp. lia. }
    destruct (Z.abs_spec z) as [[_ E2]|[_ E2]].
    + replace z with (2 ^ 53) by lia. exact G.
    + replace z with (- 2 ^ 53) by lia. rewrite opp_IZR. apply generic_format_opp. exact G.
  - apply generic_format_FLT. exists (Float radix2 z 0).
    + unfold F2R. cbn [Fnum Fexp bpow]. lra.
    + cbn [Fnum]. change (Z.pow radix2 53) with (2 ^ 53). lia.
    + cbn [Fexp]. lia.
Qed.

Lemma int_round : forall z, Z.abs z <= 2 ^ 53 -> round radix2 (SpecFloat.fexp 53 1024) (round_mode mode_NE) (IZR z) = IZR z.
Proof. intros z H. apply round_generic; [apply valid_rnd_N|apply int_format; exact H]. Qed.

Lemma int_below : forall z, Z.abs z <= 2 ^ 53 -> Rlt_bool (Rabs (IZR z)) (bpow radix2 1024) = true.
Proof.
  intros z H. apply Rlt_bool_true. rewrite <- abs_IZR. apply Rle_lt_trans with (IZR (2 ^ 53)); [apply IZR_le; exact H|].
  change (IZR (2 ^ 53)) with (bpow radix2 53). apply bpow_lt. lia.
Qed.

Lemma zq_plus : forall a b, (zq a + zq b)%Qc = zq (a + b).
Proof. intros a b. unfold zq. apply Qc_is_canon. cbn [this Q2Qc Qcplus]. rewrite !Qred_correct. unfold Qeq, inject_Z; simpl; ring. Qed.
Lemma zq_minus : forall a b, (zq a - zq b)%Qc = zq (a - b).
Proof. intros a b. unfold zq. apply Qc_is_canon. unfold Qcminus, Qcplus, Qcopp. cbn [this Q2Qc]. rewrite !Qred_correct. unfold Qeq, inject_Z; simpl; ring. Qed.
Lemma zq_times : forall a b, (zq a * zq b)%Qc = zq (a * b).
Proof. intros a b. unfold zq. apply Qc_is_canon. cbn [this Q2Qc Qcmult]. rewrite !Qred_correct. unfold Qeq, inject_Z; simpl; ring. Qed.

Lemma exactly_plus : forall a b q r x y, exactly a q x -> exactly b r y -> a + b <= 2 ^ 53 -> exactly (a + b) (q + r)%Qc (dplus x y).
Proof.
  intros a b q r x y (Fx & z & -> & Ex & Bx) (Fy & w & -> & Ey & By) H.
  pose proof (Bplus_correct 53 1024 precision exponent mode_NE x y Fx Fy) as C.
  assert (Z.abs (z + w) <= 2 ^ 53) by lia.
  rewrite Ex, Ey, <- plus_IZR, int_round, int_below in C by auto. destruct C as (C1 & C2 & _).
  split; [exact C2|]. exists (z + w). split; [apply zq_plus|]. split; [exact C1|lia].
Qed.

Lemma exactly_minus : forall a b q r x y, exactly a q x -> exactly b r y -> a + b <= 2 ^ 53 -> exactly (a + b) (q - r)%Qc (dminus x y).
Proof.
  intros a b q r x y (Fx & z & -> & Ex & Bx) (Fy & w & -> & Ey & By) H.
  pose proof (Bminus_correct 53 1024 precision exponent mode_NE x y Fx Fy) as C.
  assert (Z.abs (z - w) <= 2 ^ 53) by lia.
  rewrite Ex, Ey, <- minus_IZR, int_round, int_below in C by auto. destruct C as (C1 & C2 & _).
  split; [exact C2|]. exists (z - w). split; [apply zq_minus|]. split; [exact C1|lia].
Qed.

Lemma exactly_times : forall a b q r x y, exactly a q x -> exactly b r y -> a * b <= 2 ^ 53 -> exactly (a * b) (q * r)%Qc (dtimes x y).
Proof.
  intros a b q r x y (Fx & z & -> & Ex & Bx) (Fy & w & -> & Ey & By) H.
  pose proof (Bmult_correct 53 1024 precision exponent mode_NE x y) as C.
  assert (Z.abs (z * w) <= a * b) by (rewrite Z.abs_mul; nia).
  rewrite Ex, Ey, <- mult_IZR, int_round, int_below in C by lia. destruct C as (C1 & C2 & _).
  split; [unfold dtimes; rewrite C2, Fx, Fy; reflexivity|]. exists (z * w). split; [apply zq_times|]. split; [exact C1|lia].
Qed.

Lemma exactly_dz : forall z, Z.abs z <= 2 ^ 53 -> exactly (Z.abs z) (zq z) (dz z).
Proof.
  intros z H. pose proof (binary_normalize_correct 53 1024 precision exponent mode_NE z 0 false) as C. cbv zeta in C.
  replace (F2R (Float radix2 z 0)) with (IZR z) in C by (unfold F2R; cbn [Fnum Fexp bpow]; lra).
  rewrite int_round, int_below in C by auto. destruct C as (C1 & C2 & _).
  split; [exact C2|]. exists z. split; [reflexivity|]. split; [exact C1|lia].
Qed.

Lemma exactly_zero : forall b, 0 <= b -> exactly b 0%Qc dzero.
Proof. intros b H. split; [reflexivity|]. exists 0. split; [reflexivity|]. split; [reflexivity|cbn; lia]. Qed.

Lemma exactly_weaken : forall a b q x, exactly a q x -> a <= b -> exactly b q x.
Proof. intros a b q x (F & z & E & R & B) H. split; [exact F|]. exists z. repeat split; auto. lia. Qed.

Lemma exactly_pos : forall b q x, exactly b q x -> 0 <= b.
Proof. intros b q x (_ & z & _ & _ & B). lia. Qed.

Lemma zq_inj : forall a b, zq a = zq b -> a = b.
Proof.
  intros a b H. apply (f_equal this) in H. unfold zq, Q2Qc in H. cbn [this] in H.
  assert (Q : (inject_Z a == inject_Z b)%Q) by (rewrite <- (Qred_correct (inject_Z a)), H, Qred_correct; reflexivity).
  unfold Qeq, inject_Z in Q. simpl in Q. lia.
Qed.

Lemma exactly_eq : forall a b q r x y, exactly a q x -> exactly b r y -> deq x y = Qceq_b q r.
Proof.
  intros a b q r x y (Fx & z & -> & Ex & _) (Fy & w & -> & Ey & _). unfold deq.
  rewrite Beqb_correct by auto. rewrite Ex, Ey. unfold Qceq_b.
  destruct (Req_bool_spec (IZR z) (IZR w)) as [E|N].
  - apply eq_IZR in E. subst. symmetry. apply Qeq_bool_iff. reflexivity.
  - symmetry. apply not_true_is_false. intros T. apply N. f_equal. apply zq_inj. apply Qc_is_canon. apply Qeq_bool_iff. exact T.
Qed.

Lemma Q2R_zq : forall z, Q2R (this (zq z)) = IZR z.
Proof.
  intros z. unfold zq, Q2Qc. cbn [this]. rewrite (Qeq_eqR _ (inject_Z z)) by apply Qred_correct.
  unfold Q2R, inject_Z. cbn [Qnum Qden]. field.
Qed.

Lemma exactly_value : forall b q x, exactly b q x -> is_finite x = true /\ B2R x = Q2R (this q).
Proof. intros b q x (F & z & -> & E & _). split; [exact F|]. rewrite Q2R_zq. exact E. Qed.
