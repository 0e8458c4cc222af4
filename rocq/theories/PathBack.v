(** * PathBack: when the path back is the reverse of the path there *)

From Coq Require Import ZArith List Bool Lia Znumtheory.
From Verif Require Import Base Path SpecPath SpecPathSym PathProofs BaseLemmas PathTop PathSym.
Import ListNotations.
Open Scope Z_scope.

Definition halfway (A k d : Z) : Prop := (2 * Z.abs d * k + A) mod (2 * A) = 0.

Lemma bpos_back : forall A k p q, 0 < A -> 0 <= k <= A ->
  (bpos A (A - k) p q = bpos A k q p <-> ~ halfway A k (q - p)).
Proof.
  intros A k p q HA Hk. unfold bpos, halfway. replace (p - q) with (- (q - p)) by lia. rewrite Z.sgn_opp, Z.abs_opp.
  set (b := Z.abs (q - p)). assert (E : q = p + Z.sgn (q - p) * b) by (unfold b; rewrite Z.mul_comm, Z.abs_sgn; lia).
  set (m := (2 * b * k + A) / (2 * A)).
  pose proof (Z.div_mod (2 * b * k + A) (2 * A) ltac:(lia)) as D. fold m in D.
  pose proof (Z.mod_pos_bound (2 * b * k + A) (2 * A) ltac:(lia)) as B.
  set (r := (2 * b * k + A) mod (2 * A)) in *. assert (B0 : q - p = 0 -> b = 0) by (unfold b; lia). clearbody r m b.
  destruct (Z.eq_dec r 0) as [R|R].
  - assert (M : (2 * b * (A - k) + A) / (2 * A) = b - m + 1) by (symmetry; apply Z.div_unique with (r := 0); [lia|]; rewrite R in D; ring_simplify in D; ring_simplify; lia).
    assert (NZ : q - p <> 0). { intros Z0. rewrite (B0 Z0), R in D. assert (X : A * (2 * m - 1) = 0) by lia. apply Z.mul_eq_0 in X. lia. }
    rewrite M. split; [|tauto]. intros EQ. exfalso. assert (Z.sgn (q - p) = 0) by nia. apply Z.sgn_null_iff in H. lia.
  - assert (M : (2 * b * (A - k) + A) / (2 * A) = b - m) by (symmetry; apply Z.div_unique with (r := 2 * A - r); [lia|nia]).
    rewrite M. split; [tauto|]. intros _. nia.
Qed.

Lemma halfway_some : forall A d, 0 < A -> ((exists k, 0 <= k <= A /\ halfway A k d) <-> Z.odd (A / Z.gcd A d) = false).
Proof.
  intros A d HA. unfold halfway. set (b := Z.abs d). assert (HB : 0 <= b) by (unfold b; lia).
  replace (Z.gcd A d) with (Z.gcd A b) by (unfold b; apply Z.gcd_abs_r). clearbody b.
  set (g := Z.gcd A b). assert (HG : 0 < g) by (pose proof (Z.gcd_nonneg A b); assert (g <> 0) by (unfold g; intros G0; apply Z.gcd_eq_0_l in G0; lia); unfold g in *; lia).
  destruct (Z.gcd_divide_l A b) as [a' HA']. destruct (Z.gcd_divide_r A b) as [b' HB']. fold g in HA', HB'.
  assert (HQ : A / g = a') by (rewrite HA'; apply Z.div_mul; lia). rewrite HQ. assert (PA : 0 < a') by nia.
  rewrite <- Z.negb_even, Bool.negb_false_iff. split.
  - intros (k & Hk & H). apply Z.mod_divide in H; [|lia]. destruct H as [m H]. apply Z.even_spec.
    assert (X : 2 * b' * k + a' = 2 * a' * m) by nia. exists (a' * m - b' * k). lia.
  - intros EV. apply Z.even_spec in EV. destruct EV as [h HH].
    assert (OB : Z.odd b' = true).
    { destruct (Z.odd b') eqn:O; [reflexivity|]. exfalso. rewrite <- Z.negb_even, Bool.negb_false_iff in O. apply Z.even_spec in O. destruct O as [c HC].
      assert (DV : (2 * g | Z.gcd A b)). { apply Z.gcd_greatest; [exists h; nia|exists c; nia]. }
      fold g in DV. apply Z.divide_pos_le in DV; lia. }
    apply Z.odd_spec in OB. destruct OB as [c HC]. exists h. split; [nia|]. apply Z.mod_divide; [lia|]. exists (c + 1). nia.
Qed.

Lemma brow_back : forall A k x0 x1, 0 < A -> 0 <= k <= A -> length x1 = length x0 ->
  (brow A (A - k) x0 x1 = brow A k x1 x0 <-> forall i, (i < length x0)%nat -> ~ halfway A k (nth i x1 0 - nth i x0 0)).
Proof.
  intros A k x0. induction x0 as [|p x0 IH]; intros [|q x1] HA Hk HL; try discriminate; cbn [brow].
  - split; auto. cbn. intros; lia.
  - cbn [length] in *. specialize (IH x1 HA Hk ltac:(lia)). pose proof (bpos_back A k p q HA Hk) as B. split.
    + intros E. injection E as E1 E2. intros [|i] Hi; cbn [nth]; [tauto|]. apply IH; [assumption|lia].
    + intros H. f_equal; [apply B; exact (H 0%nat ltac:(lia))|]. apply IH. intros i Hi. exact (H (S i) ltac:(lia)).
Qed.

Lemma map_ext_iff : forall {A B} (f g : A -> B) l, map f l = map g l <-> forall x, In x l -> f x = g x.
Proof.
  intros A B f g l. split; [|apply map_ext_in]. induction l as [|y l IH]; intros E x H; [destruct H|]. cbn in E. injection E as E1 E2. destruct H as [-> |H]; auto.
Qed.

Lemma bres_back : forall fuel x0 x1, (1 <= length x0 <= 3)%nat -> length x1 = length x0 -> x0 <> x1 ->
  span x0 x1 < 2 ^ 30 -> (Z.to_nat (span x0 x1) < fuel)%nat ->
  exists rows rows', path fuel x0 x1 Bresenham = Ok rows /\ path fuel x1 x0 Bresenham = Ok rows' /\
    (rows' = rev rows <->
       forall i, (i < length x0)%nat -> Z.odd (span x0 x1 / Z.gcd (span x0 x1) (nth i x1 0 - nth i x0 0)) = true).
Proof.
  intros fuel x0 x1 HL H2 HN HB Hf. pose proof (span_pos x0 x1 H2 HN) as HS. cbn [path].
  eexists. eexists. split; [apply bresenham_ok; auto; lia|]. split; [rewrite (bresenham_ok fuel x1 x0) by (rewrite ?(span_sym x0 x1); auto; lia); reflexivity|].
  rewrite (span_sym x0 x1), rev_map_zseq, map_ext_iff. set (A := span x0 x1) in *. rewrite Z2Nat.id by lia.
  transitivity (forall k, 0 <= k <= A -> forall i, (i < length x0)%nat -> ~ halfway A k (nth i x1 0 - nth i x0 0)).
  - split.
    + intros H k Hk. apply brow_back; auto. symmetry. apply H. apply zseq_In. lia.
    + intros H k Hk. apply zseq_In in Hk. symmetry. apply brow_back; auto; [lia|]. apply H. lia.
  - split.
    + intros H i Hi. destruct (Z.odd (A / Z.gcd A (nth i x1 0 - nth i x0 0))) eqn:O; [reflexivity|]. exfalso.
      apply halfway_some in O; [|lia]. destruct O as (k & Hk & O). exact (H k Hk i Hi O).
    + intros H k Hk i Hi O. specialize (H i Hi). assert (X : Z.odd (A / Z.gcd A (nth i x1 0 - nth i x0 0)) = false) by (apply halfway_some; [lia|eauto]). congruence.
Qed.
