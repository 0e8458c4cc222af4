(** * StructureProofs: proofs about [Structure] *)

From Coq Require Import ZArith List Bool Lia Reals Lra.
From Verif Require Import Base BaseLemmas Structure SpecStructure.
Import ListNotations.
Open Scope Z_scope.

(** ** Sums *)
Lemma sum_ext : forall n f g, (forall j, 0 <= j < n -> f j = g j) -> sum_below n f = sum_below n g.
Proof.
  intros n f g H. unfold sum_below. f_equal. apply map_ext_in. intros a Ha. apply H. now apply zrange_In in Ha.
Qed.

Lemma zseq_app : forall a b s, zseq s (a + b) = zseq s a ++ zseq (s + Z.of_nat a) b.
Proof.
  induction a; intros b s; cbn [zseq plus app]; [now rewrite Z.add_0_r|].
  rewrite IHa. do 3 f_equal. lia.
Qed.

Lemma sum_app_aux : forall l l', fold_right Rplus 0%R (l ++ l') = (fold_right Rplus 0 l + fold_right Rplus 0 l')%R.
Proof. induction l; intro l'; cbn; [ring|]. rewrite IHl. ring. Qed.

Lemma sum_succ : forall n f, 0 <= n -> sum_below (n + 1) f = (sum_below n f + f n)%R.
Proof.
  intros n f H. unfold sum_below, zrange. rewrite !Z.sub_0_r. replace (Z.to_nat (n + 1)) with (Z.to_nat n + 1)%nat by lia.
  rewrite zseq_app, map_app, sum_app_aux. cbn. rewrite Z2Nat.id by lia. ring.
Qed.

Lemma sum_0 : forall f, sum_below 0 f = 0%R.
Proof. reflexivity. Qed.

Lemma sum_plus : forall n f g, 0 <= n -> sum_below n (fun j => f j + g j)%R = (sum_below n f + sum_below n g)%R.
Proof.
  intros n f g. revert n. apply natlike_ind; [rewrite !sum_0; ring|]. intros n H IH.
  unfold Z.succ. rewrite !sum_succ by lia. rewrite IH. ring.
Qed.

Lemma sum_scal : forall n a f, 0 <= n -> sum_below n (fun j => a * f j)%R = (a * sum_below n f)%R.
Proof.
  intros n a f. revert n. apply natlike_ind; [rewrite !sum_0; ring|]. intros n H IH.
  unfold Z.succ. rewrite !sum_succ by lia. rewrite IH. ring.
Qed.

Lemma sum_swap : forall n m f, 0 <= n -> 0 <= m ->
  sum_below n (fun a => sum_below m (f a)) = sum_below m (fun b => sum_below n (fun a => f a b)).
Proof.
  intros n m f Hn Hm. revert n Hn. apply natlike_ind.
  - rewrite sum_0. rewrite (sum_ext m _ (fun b => 0 * 0)%R) by (intros; rewrite sum_0; ring).
    rewrite sum_scal by lia. ring.
  - intros n H IH. unfold Z.succ. rewrite sum_succ by lia. rewrite IH.
    rewrite <- sum_plus by lia. apply sum_ext. intros. now rewrite sum_succ.
Qed.

(** The first term apart. *)
Lemma sum_first : forall n f, 0 <= n -> sum_below (n + 1) f = Rplus (f 0) (sum_below n (fun j => f (j + 1))).
Proof.
  intros n f. revert n. apply natlike_ind.
  - rewrite sum_succ, !sum_0 by lia. ring.
  - intros n H IH. unfold Z.succ. rewrite sum_succ by lia. rewrite IH. rewrite (sum_succ n (fun j => f (j + 1))) by lia. ring.
Qed.

Lemma sum_rotate1 : forall n g, 0 < n -> sum_below n (fun j => g ((j + 1) mod n)) = sum_below n g.
Proof.
  intros n g H. transitivity (sum_below ((n - 1) + 1) (fun j => g ((j + 1) mod n))); [f_equal; lia|].
  transitivity (sum_below ((n - 1) + 1) g); [|f_equal; lia].
  rewrite sum_succ, sum_first by lia. replace (n - 1 + 1) with n by lia. rewrite Z_mod_same_full.
  rewrite (sum_ext (n - 1) (fun j => g ((j + 1) mod n)) (fun j => g (j + 1))); [ring|].
  intros j Hj. now rewrite Z.mod_small by lia.
Qed.

Lemma sum_rotate : forall n g t, 0 < n -> 0 <= t -> sum_below n (fun j => g ((j + t) mod n)) = sum_below n g.
Proof.
  intros n g t H. revert t. apply natlike_ind.
  - apply sum_ext. intros. now rewrite Z.add_0_r, Z.mod_small.
  - intros t Ht IH. rewrite <- IH. rewrite <- (sum_rotate1 n (fun j => g ((j + t) mod n))) by assumption.
    apply sum_ext. intros. rewrite Zplus_mod_idemp_l. do 2 f_equal. lia.
Qed.

(** ** The transform *)
Lemma csum_fst : forall n f, fst (csum f n) = sum_below n (fun j => fst (f j)).
Proof.
  intros n f. unfold csum, sum_below. induction (zrange 0 n); cbn; [reflexivity|]. now rewrite IHl.
Qed.

Lemma csum_snd : forall n f, snd (csum f n) = sum_below n (fun j => snd (f j)).
Proof.
  intros n f. unfold csum, sum_below. induction (zrange 0 n); cbn; [reflexivity|]. now rewrite IHl.
Qed.

Definition wave (n j k : Z) : R := (2 * PI * (IZR j * IZR k / IZR n))%R.

Lemma fft_fst : forall n u k, fst (fft n u k) = sum_below n (fun j => u j * cos (wave n j k))%R.
Proof.
  intros. unfold fft. rewrite csum_fst. apply sum_ext. intros. cbn. unfold wave. do 2 f_equal.
  rewrite mult_IZR. unfold Rdiv. ring.
Qed.

Lemma fft_snd : forall n u k, 0 <= n -> snd (fft n u k) = (- sum_below n (fun j => u j * sin (wave n j k)))%R.
Proof.
  intros. unfold fft. rewrite csum_snd.
  replace (- sum_below n (fun j => u j * sin (wave n j k)))%R with (-1 * sum_below n (fun j => u j * sin (wave n j k)))%R by ring.
  rewrite <- sum_scal by assumption. apply sum_ext. intros. cbn. unfold wave.
  replace (2 * PI * (IZR j * IZR k / IZR n))%R with (2 * PI * IZR (j * k) / IZR n)%R by (rewrite mult_IZR; unfold Rdiv; ring).
  ring.
Qed.

Lemma cos_turns : forall x j, cos (x + 2 * PI * IZR j) = cos x.
Proof.
  intros x j. destruct (Z_le_gt_dec 0 j).
  - rewrite <- (Z2Nat.id j) by lia. rewrite <- INR_IZR_INZ. replace (2 * PI * INR (Z.to_nat j))%R with (2 * INR (Z.to_nat j) * PI)%R by ring. apply cos_period.
  - rewrite <- (cos_period _ (Z.to_nat (- j))). f_equal. rewrite INR_IZR_INZ, Z2Nat.id by lia. rewrite opp_IZR. ring.
Qed.

Lemma sin_turns : forall x j, sin (x + 2 * PI * IZR j) = sin x.
Proof.
  intros x j. destruct (Z_le_gt_dec 0 j).
  - rewrite <- (Z2Nat.id j) by lia. rewrite <- INR_IZR_INZ. replace (2 * PI * INR (Z.to_nat j))%R with (2 * INR (Z.to_nat j) * PI)%R by ring. apply sin_period.
  - rewrite <- (sin_period _ (Z.to_nat (- j))). f_equal. rewrite INR_IZR_INZ, Z2Nat.id by lia. rewrite opp_IZR. ring.
Qed.

Lemma wave_opp : forall n j k, 0 < n -> wave n j (n - k) = (- wave n j k + 2 * PI * IZR j)%R.
Proof.
  intros n j k H. unfold wave. rewrite minus_IZR. apply IZR_lt in H. field. lra.
Qed.

Lemma fft_opp : forall n u k, 0 < n -> fft n u (n - k) = (fst (fft n u k), (- snd (fft n u k))%R).
Proof.
  intros n u k H. rewrite (surjective_pairing (fft n u (n - k))). f_equal.
  - rewrite !fft_fst. apply sum_ext. intros. rewrite wave_opp, cos_turns, cos_neg by assumption. reflexivity.
  - rewrite !fft_snd by lia. rewrite Ropp_involutive.
    replace (sum_below n (fun j => u j * sin (wave n j k)))%R with (-1 * (-1 * sum_below n (fun j => u j * sin (wave n j k))))%R by ring.
    rewrite <- (sum_scal n (-1)) by lia.
    rewrite (sum_ext n (fun j => u j * sin (wave n j (n - k)))%R (fun j => -1 * (u j * sin (wave n j k)))%R).
    + ring.
    + intros. rewrite wave_opp, sin_turns, sin_neg by assumption. ring.
Qed.

Lemma fft_0 : forall n u, 0 < n -> fft n u 0 = fft n u (n - 0).
Proof.
  intros n u H. rewrite fft_opp by assumption. rewrite (surjective_pairing (fft n u 0)) at 1. f_equal.
  rewrite fft_snd by lia. rewrite (sum_ext n _ (fun j => 0 * 0)%R), sum_scal by
    (try lia; intros; unfold wave; rewrite Rmult_0_r; unfold Rdiv; rewrite Rmult_0_l, Rmult_0_r, sin_0; ring). ring.
Qed.

Lemma power_eq : forall n u k, 0 < n -> fst (cmul (fft n u k) (fft n u (n - k))) = power n u k.
Proof.
  intros n u k H. rewrite fft_opp by assumption. unfold cmul. cbn [fst snd].
  rewrite fft_fst, fft_snd by lia. unfold power. fold (wave n). 
  change (fun j => u j * cos (2 * PI * (IZR j * IZR k / IZR n)))%R with (fun j => u j * cos (wave n j k))%R.
  change (fun j => u j * sin (2 * PI * (IZR j * IZR k / IZR n)))%R with (fun j => u j * sin (wave n j k))%R.
  ring.
Qed.

Lemma power_product : forall n u k, 0 <= k < n ->
  cmul (fft n u k) (fft n u (opposite n k)) = (power n u k, 0%R).
Proof.
  intros n u k H. rewrite <- power_eq by lia.
  assert (E : fft n u (opposite n k) = fft n u (n - k)).
  { unfold opposite. destruct (Z.eq_dec k 0) as [->|].
    - rewrite <- fft_0 by lia. reflexivity.
    - f_equal. rewrite <- (Z_mod_plus_full _ 1). rewrite Z.mod_small by lia. lia. }
  rewrite E, fft_opp by lia. unfold cmul. cbn [fst snd]. f_equal. ring.
Qed.

Lemma power_opp : forall n u k, 0 < n -> power n u (n - k) = power n u k.
Proof.
  intros n u k H. rewrite <- !power_eq by assumption. replace (n - (n - k)) with k by lia. unfold cmul. cbn [fst]. ring.
Qed.

Lemma power_nonneg : forall n u k, (0 <= power n u k)%R.
Proof. intros. unfold power. apply Rplus_le_le_0_compat; apply pow2_ge_0. Qed.

(** ** One sample, one dimension *)
Lemma start_stop : forall n, 1 <= n ->
  1 <= stop_of n /\ start_of n + stop_of n = n + 1 /\ stop_of n <= start_of n /\
  forall k, (k < stop_of n <-> 2 * k < n) /\ (start_of n <= k <-> n < 2 * k).
Proof.
  intros n H. unfold start_of, stop_of.
  pose proof (Z.div_mod n 2 ltac:(lia)). pose proof (Z.mod_pos_bound n 2 ltac:(lia)).
  generalize dependent (n / 2). generalize dependent (n mod 2). intros r Hr d Hd.
  destruct (r =? 0) eqn:E; (split; [lia|split; [lia|split; [lia|intro k; lia]]]).
Qed.

Ltac if_true := match goal with |- context [if ?b then _ else _] => replace b with true by lia end.
Ltac if_false := match goal with |- context [if ?b then _ else _] => replace b with false by lia end.

Lemma sample1_ok : forall dt n u junk, 1 <= n ->
  exists r, sample1 dt n u junk = Ok r /\ forall k, 0 <= k < n ->
    (~ nyquist n k -> vat r k = cast dt (power n u k) / IZR n)%R /\ (nyquist n k -> vat r k = junk k / IZR n)%R.
Proof.
  intros dt n u junk H. destruct (start_stop n H) as (A & B & C & D). unfold sample1, nyquist.
  set (e := stop_of n) in *. set (s := start_of n) in *. clearbody e s.
  if_false. unfold vput, vmul, vslice, vflip, vassign, vreal. cbn [vlen vat].
  if_true. cbn [bind vlen vat].
  rewrite !(Z.min_l 1 n), !(Z.min_l e n), !(Z.min_l s n), !(Z.min_l n n) by lia.
  if_true. cbn [bind vlen vat]. if_true. cbn [bind vlen vat].
  rewrite !(Z.min_l 1 n), !(Z.min_l e n), !(Z.min_l s n), !(Z.min_l n n) by lia. if_true. cbn [bind vlen vat].
  eexists. split; [reflexivity|]. cbn [vat]. intros k Hk. specialize (D k).
  split; intro Q.
  - f_equal. destruct (Z_lt_ge_dec (2 * k) n).
    + replace ((s <=? k) && (k <? n)) with false by lia. destruct (Z.eq_dec k 0) as [->|].
      * replace ((1 <=? 0) && (0 <? e)) with false by lia. cbn [Z.eqb].
        f_equal. rewrite (fft_0 n u) at 2 by lia. apply power_eq. lia.
      * replace ((1 <=? k) && (k <? e)) with true by lia.
        rewrite <- power_eq by lia. do 4 f_equal; lia.
    + replace ((s <=? k) && (k <? n)) with true by lia.
      replace (1 + (Z.max 0 (e - 1) - 1 - (k - s))) with (n - k) by lia.
      replace ((1 <=? n - k) && (n - k <? e)) with true by (destruct D; lia).
      rewrite <- (power_opp n u k), <- power_eq by lia. do 4 f_equal; lia.
  - f_equal. replace ((s <=? k) && (k <? n)) with false by lia.
    replace ((1 <=? k) && (k <? e)) with false by lia. replace (k =? 0) with false by lia. reflexivity.
Qed.
