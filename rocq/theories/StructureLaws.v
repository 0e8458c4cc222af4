(** * StructureLaws: spectra of mirrored, scaled, shifted and transposed samples *)

From Coq Require Import ZArith List Bool Reals Lra Lia.
From Verif Require Import Base Structure SpecStructure StructureProofs StructureProofs2 StructureTop SpecSpectrum.
Import ListNotations.
Open Scope Z_scope.

Lemma sum_mirror : forall n f, 0 <= n -> sum_below n (fun j => f (n - 1 - j)) = sum_below n f.
Proof.
  intros n f H. revert f. pattern n. apply natlike_ind; [now intros; rewrite !sum_0| |exact H]. clear n H.
  intros n H IH f. unfold Z.succ. rewrite sum_first by assumption. rewrite (sum_succ n f) by assumption.
  replace (n + 1 - 1 - 0) with n by lia. rewrite Rplus_comm. f_equal.
  rewrite <- IH. apply sum_ext. intros j Hj. f_equal. lia.
Qed.

Lemma wave_sym : forall n j k, wave n j k = wave n k j.
Proof. intros. unfold wave. now rewrite (Rmult_comm (IZR j)). Qed.

Lemma power_wave : forall n u k, power n u k =
  (sum_below n (fun j => u j * cos (wave n j k)) ^ 2 + sum_below n (fun j => u j * sin (wave n j k)) ^ 2)%R.
Proof. reflexivity. Qed.
Lemma power2_wave : forall n m u k l, power2 n m u k l =
  (sum_below n (fun a => sum_below m (fun b => u a b * cos (wave2 n m a b k l))) ^ 2 +
   sum_below n (fun a => sum_below m (fun b => u a b * sin (wave2 n m a b k l))) ^ 2)%R.
Proof. reflexivity. Qed.

(** ** Read backwards *)
Lemma wave_back : forall n j k, 0 < n -> wave n (n - 1 - j) k = (wave n (n - 1) k - wave n j k)%R.
Proof. intros n j k H. unfold wave. rewrite (minus_IZR (n - 1) j). apply IZR_lt in H. field. lra. Qed.

Lemma power_back : forall n u u' k, 0 < n -> backwards n u u' -> power n u' k = power n u k.
Proof.
  intros n u u' k Hn H. rewrite !power_wave.
  rewrite <- (sum_mirror n (fun j => u' j * cos (wave n j k))%R), <- (sum_mirror n (fun j => u' j * sin (wave n j k))%R) by lia.
  set (c := cos (wave n (n - 1) k)). set (s := sin (wave n (n - 1) k)).
  assert (W : forall j, 0 <= j < n -> u' (n - 1 - j) = u j).
  { intros j Hj. rewrite H by lia. f_equal. lia. }
  rewrite (sum_ext n (fun j => u' (n - 1 - j)%Z * cos (wave n (n - 1 - j) k))%R
    (fun j => c * (u j * cos (wave n j k)) + s * (u j * sin (wave n j k)))%R).
  2: { intros j Hj. rewrite W, wave_back, cos_minus by assumption. unfold c, s. ring. }
  rewrite (sum_ext n (fun j => u' (n - 1 - j)%Z * sin (wave n (n - 1 - j) k))%R
    (fun j => s * (u j * cos (wave n j k)) + - c * (u j * sin (wave n j k)))%R).
  2: { intros j Hj. rewrite W, wave_back, sin_minus by assumption. unfold c, s. ring. }
  rewrite !sum_plus, !sum_scal by lia.
  pose proof (sin2_cos2 (wave n (n - 1) k)) as T. fold c s in T. unfold Rsqr in T.
  set (A := sum_below n (fun j => u j * cos (wave n j k))%R). set (B := sum_below n (fun j => u j * sin (wave n j k))%R).
  transitivity ((s * s + c * c) * (A ^ 2 + B ^ 2))%R; [ring|]. rewrite T. ring.
Qed.

Lemma sum_mirror2 : forall n m (g : Z -> Z -> R), 0 <= n -> 0 <= m ->
  sum_below n (fun a => sum_below m (fun b => g (n - 1 - a) (m - 1 - b))) = sum_below n (fun a => sum_below m (g a)).
Proof.
  intros n m g Hn Hm. rewrite <- (sum_mirror n (fun a => sum_below m (g a))) by assumption. apply sum_ext. intros a _.
  now rewrite <- (sum_mirror m (g (n - 1 - a))).
Qed.

Lemma wave2_back : forall n m a b k l, 0 < n -> 0 < m ->
  wave2 n m (n - 1 - a) (m - 1 - b) k l = (wave2 n m (n - 1) (m - 1) k l - wave2 n m a b k l)%R.
Proof.
  intros n m a b k l Hn Hm. unfold wave2. rewrite (minus_IZR (n - 1) a), (minus_IZR (m - 1) b). apply IZR_lt in Hn, Hm. field. lra.
Qed.

Lemma power2_back : forall n m u u' k l, 0 < n -> 0 < m -> backwards2 n m u u' -> power2 n m u' k l = power2 n m u k l.
Proof.
  intros n m u u' k l Hn Hm H. rewrite !power2_wave.
  rewrite <- (sum_mirror2 n m (fun a b => u' a b * cos (wave2 n m a b k l))%R), <- (sum_mirror2 n m (fun a b => u' a b * sin (wave2 n m a b k l))%R) by lia.
  set (c := cos (wave2 n m (n - 1) (m - 1) k l)). set (s := sin (wave2 n m (n - 1) (m - 1) k l)).
  set (f := fun a b => (u a b * cos (wave2 n m a b k l))%R). set (g := fun a b => (u a b * sin (wave2 n m a b k l))%R).
  assert (W : forall a b, 0 <= a < n -> 0 <= b < m -> u' (n - 1 - a) (m - 1 - b) = u a b).
  { intros a b Ha Hb. rewrite H by lia. f_equal; lia. }
  rewrite (sum_ext n (fun a => sum_below m (fun b => u' (n - 1 - a)%Z (m - 1 - b)%Z * cos (wave2 n m (n - 1 - a) (m - 1 - b) k l)))%R
    (fun a => sum_below m (fun b => c * f a b + s * g a b))%R).
  2: { intros a Ha. apply sum_ext. intros b Hb. rewrite W, wave2_back, cos_minus by assumption. unfold c, s, f, g. ring. }
  rewrite (sum_ext n (fun a => sum_below m (fun b => u' (n - 1 - a)%Z (m - 1 - b)%Z * sin (wave2 n m (n - 1 - a) (m - 1 - b) k l)))%R
    (fun a => sum_below m (fun b => s * f a b + - c * g a b))%R).
  2: { intros a Ha. apply sum_ext. intros b Hb. rewrite W, wave2_back, sin_minus by assumption. unfold c, s, f, g. ring. }
  rewrite !sum2_lin by lia.
  change (sum_below n (fun a => sum_below m (fun b => u a b * cos (wave2 n m a b k l))))%R with (sum_below n (fun a => sum_below m (f a))).
  change (sum_below n (fun a => sum_below m (fun b => u a b * sin (wave2 n m a b k l))))%R with (sum_below n (fun a => sum_below m (g a))).
  pose proof (sin2_cos2 (wave2 n m (n - 1) (m - 1) k l)) as T. fold c s in T. unfold Rsqr in T.
  set (A := sum_below n (fun a => sum_below m (f a))). set (B := sum_below n (fun a => sum_below m (g a))).
  transitivity ((s * s + c * c) * (A ^ 2 + B ^ 2))%R; [ring|]. rewrite T. ring.
Qed.

(** ** Multiples and constants *)
Lemma cos_zero_sum : forall n k, 0 < k < n -> sum_below n (fun j => cos (wave n j k)) = 0%R.
Proof.
  intros n k H. rewrite (sum_ext n _ (fun j => cos (wave n k j))) by (intros; now rewrite wave_sym).
  apply cos_sum; [lia|]. intro D. apply Z.divide_pos_le in D; lia.
Qed.

Lemma sin_zero_sum : forall n k, 0 < n -> sum_below n (fun j => sin (wave n j k)) = 0%R.
Proof.
  intros n k H. replace n with (n - 1 + 1) at 1 by lia. rewrite sum_first by lia.
  assert (Z0 : sin (wave n 0 k) = 0%R).
  { unfold wave. rewrite Rmult_0_l. unfold Rdiv. rewrite Rmult_0_l, Rmult_0_r. apply sin_0. }
  rewrite Z0, Rplus_0_l. set (X := sum_below (n - 1) (fun j => sin (wave n (j + 1) k))).
  assert (E : X = (- X)%R); [|lra].
  unfold X at 1. rewrite <- (sum_mirror (n - 1)) by lia. unfold X. rewrite <- sum_opp by lia. apply sum_ext. intros j Hj.
  rewrite <- sin_neg. rewrite <- (sin_turns (- wave n (j + 1) k) k). f_equal.
  replace (n - 1 - 1 - j + 1) with (n - (j + 1)) by lia. unfold wave. rewrite minus_IZR. apply IZR_lt in H. field. lra.
Qed.

Lemma power_affine : forall n c d u u' k, 0 < k < n -> affine n c d u u' -> power n u' k = (c ^ 2 * power n u k)%R.
Proof.
  intros n c d u u' k Hk H. rewrite !power_wave.
  rewrite (sum_ext n (fun j => u' j * cos (wave n j k))%R (fun j => c * (u j * cos (wave n j k)) + d * cos (wave n j k))%R)
    by (intros j Hj; rewrite H by assumption; ring).
  rewrite (sum_ext n (fun j => u' j * sin (wave n j k))%R (fun j => c * (u j * sin (wave n j k)) + d * sin (wave n j k))%R)
    by (intros j Hj; rewrite H by assumption; ring).
  rewrite !sum_plus, !sum_scal, cos_zero_sum, sin_zero_sum by lia. ring.
Qed.

Lemma power_zero : forall n u, power n u 0 = (sum_below n u ^ 2)%R.
Proof.
  intros n u. rewrite power_wave. destruct (Z_lt_le_dec 0 n) as [P|P].
  - assert (W : forall j, wave n j 0 = 0%R) by (intro j; unfold wave; unfold Rdiv; ring).
    rewrite (sum_ext n (fun j => u j * cos (wave n j 0))%R u) by (intros; rewrite W, cos_0; ring).
    rewrite (sum_ext n (fun j => u j * sin (wave n j 0))%R (fun j => 0 * u j)%R) by (intros; rewrite W, sin_0; ring).
    rewrite sum_scal by lia. ring.
  - assert (N : forall f, sum_below n f = 0%R).
    { intro f. unfold sum_below, zrange. replace (Z.to_nat (n - 0)) with 0%nat by lia. reflexivity. }
    rewrite !N. ring.
Qed.

Lemma sum_const : forall n (d : R), 0 <= n -> sum_below n (fun _ => d) = (IZR n * d)%R.
Proof.
  intros n d H. pattern n. apply natlike_ind; [rewrite sum_0; ring| |exact H]. intros m Hm E. unfold Z.succ.
  rewrite sum_succ, E, plus_IZR by assumption. ring.
Qed.

Lemma sum_affine : forall n c d u u', 0 <= n -> affine n c d u u' -> sum_below n u' = (c * sum_below n u + IZR n * d)%R.
Proof.
  intros n c d u u' Hn H. rewrite (sum_ext n u' (fun j => c * u j + d)%R) by (intros; now apply H).
  now rewrite sum_plus, sum_scal, sum_const by assumption.
Qed.

Lemma wave2_split : forall n m a b k l, wave2 n m a b k l = (wave n a k + wave m b l)%R.
Proof. intros. unfold wave2, wave. ring. Qed.

Lemma cos_zero_sum2 : forall n m k l, 0 <= k < n -> 0 <= l < m -> k <> 0 \/ l <> 0 ->
  sum_below n (fun a => sum_below m (fun b => cos (wave2 n m a b k l))) = 0%R /\
  sum_below n (fun a => sum_below m (fun b => sin (wave2 n m a b k l))) = 0%R.
Proof.
  intros n m k l Hk Hl D.
  set (C := sum_below m (fun b => cos (wave m b l))). set (S := sum_below m (fun b => sin (wave m b l))).
  assert (C1 : sum_below n (fun a => sum_below m (fun b => cos (wave2 n m a b k l))) =
    (C * sum_below n (fun a => cos (wave n a k)) + - S * sum_below n (fun a => sin (wave n a k)))%R).
  { rewrite <- !sum_scal, <- sum_plus by lia. apply sum_ext. intros a _.
    rewrite (sum_ext m _ (fun b => cos (wave n a k) * cos (wave m b l) + - sin (wave n a k) * sin (wave m b l))%R)
      by (intros; rewrite wave2_split, cos_plus; ring).
    rewrite sum_plus, !sum_scal by lia. unfold C, S. ring. }
  assert (S1 : sum_below n (fun a => sum_below m (fun b => sin (wave2 n m a b k l))) =
    (C * sum_below n (fun a => sin (wave n a k)) + S * sum_below n (fun a => cos (wave n a k)))%R).
  { rewrite <- !sum_scal, <- sum_plus by lia. apply sum_ext. intros a _.
    rewrite (sum_ext m _ (fun b => sin (wave n a k) * cos (wave m b l) + cos (wave n a k) * sin (wave m b l))%R)
      by (intros; rewrite wave2_split, sin_plus; ring).
    rewrite sum_plus, !sum_scal by lia. unfold C, S. ring. }
  rewrite C1, S1. rewrite sin_zero_sum by lia. assert (S0 : S = 0%R) by (apply sin_zero_sum; lia). rewrite S0.
  destruct D as [D|D].
  - rewrite cos_zero_sum by lia. split; ring.
  - assert (C0 : C = 0%R) by (apply cos_zero_sum; lia). rewrite C0. split; ring.
Qed.

Lemma power2_affine : forall n m c d u u' k l, 0 <= k < n -> 0 <= l < m -> k <> 0 \/ l <> 0 -> affine2 n m c d u u' ->
  power2 n m u' k l = (c ^ 2 * power2 n m u k l)%R.
Proof.
  intros n m c d u u' k l Hk Hl D H. rewrite !power2_wave.
  destruct (cos_zero_sum2 n m k l Hk Hl D) as [C S].
  set (f := fun a b => (u a b * cos (wave2 n m a b k l))%R). set (g := fun a b => (u a b * sin (wave2 n m a b k l))%R).
  rewrite (sum_ext n (fun a => sum_below m (fun b => u' a b * cos (wave2 n m a b k l)))%R
    (fun a => sum_below m (fun b => c * f a b + d * cos (wave2 n m a b k l)))%R)
    by (intros a Ha; apply sum_ext; intros b Hb; rewrite H by assumption; unfold f; ring).
  rewrite (sum_ext n (fun a => sum_below m (fun b => u' a b * sin (wave2 n m a b k l)))%R
    (fun a => sum_below m (fun b => c * g a b + d * sin (wave2 n m a b k l)))%R)
    by (intros a Ha; apply sum_ext; intros b Hb; rewrite H by assumption; unfold g; ring).
  rewrite (sum2_lin n m c d f (fun a b => cos (wave2 n m a b k l))), (sum2_lin n m c d g (fun a b => sin (wave2 n m a b k l))) by lia.
  rewrite C, S. unfold f, g. ring.
Qed.

(** ** Interchanged axes *)
Lemma power2_transposed : forall n m u u' k l, 0 <= n -> 0 <= m -> transposed n m u u' -> power2 m n u' l k = power2 n m u k l.
Proof.
  intros n m u u' k l Hn Hm H. rewrite !power2_wave. f_equal; f_equal.
  - rewrite sum_swap by assumption. apply sum_ext. intros a Ha. apply sum_ext. intros b Hb. rewrite H by assumption.
    f_equal. f_equal. rewrite !wave2_split. ring.
  - rewrite sum_swap by assumption. apply sum_ext. intros a Ha. apply sum_ext. intros b Hb. rewrite H by assumption.
    f_equal. f_equal. rewrite !wave2_split. ring.
Qed.

(** ** The averages *)
Lemma average_scale : forall {A} (c : R) (f : A -> R) l, average (fun x => c * f x)%R l = (c * average f l)%R.
Proof.
  intros A c f l. unfold average. unfold Rdiv. rewrite <- Rmult_assoc. f_equal. induction l; cbn [map fold_right]; [ring|]. rewrite IHl. ring.
Qed.

Lemma Forall2_nonempty : forall {A B} (P : A -> B -> Prop) l l', Forall2 P l l' -> l <> [] -> l' <> [].
Proof. intros A B P l l' F. destruct F; congruence. Qed.

Lemma even1 : forall n start l, 1 <= n -> fresh [n] start -> l <> [] ->
  exists st, add_samples start (samples1 n l) = Ok (Some st) /\
    forall k, 0 <= k < n -> mean st [opposite n k] = mean st [k].
Proof.
  intros n start l Hn F HL. destruct (structure1 n start l Hn F HL) as (st & E & _ & M). exists st. split; [exact E|]. intros k Hk.
  unfold opposite. destruct (Z.eq_dec k 0) as [->|K]; [now rewrite Z.mod_0_l by lia|].
  rewrite <- (Z_mod_plus_full _ 1), Z.mod_small by lia. replace (- k + 1 * n) with (n - k) by lia.
  destruct (M k Hk) as [A B]. destruct (M (n - k) ltac:(lia)) as [A' B']. unfold nyquist in *.
  destruct (Z.eq_dec (2 * k) n) as [Q|Q]; [rewrite B, B' by lia; reflexivity|].
  rewrite A, A' by lia. f_equal. apply average_ext. intros s _. now rewrite power_opp by lia.
Qed.

Lemma back1 : forall n l l', 1 <= n -> l <> [] -> Forall2 (fun s s' => backwards n (fst s) (fst s')) l l' ->
  exists st st', add_samples None (samples1 n l) = Ok (Some st) /\ add_samples None (samples1 n l') = Ok (Some st') /\
    forall k, 0 <= k < n -> mean st' [k] = mean st [k].
Proof.
  intros n l l' Hn HL F. pose proof (Forall2_nonempty _ _ _ F HL) as HL'.
  destruct (structure1 n None l Hn (or_introl eq_refl) HL) as (st & E & _ & M).
  destruct (structure1 n None l' Hn (or_introl eq_refl) HL') as (st' & E' & _ & M').
  exists st, st'. split; [exact E|]. split; [exact E'|]. intros k Hk. destruct (M k Hk) as [A B]. destruct (M' k Hk) as [A' B'].
  destruct (Z.eq_dec (2 * k) n) as [Q|Q]; [rewrite B, B' by assumption; reflexivity|].
  rewrite A, A' by assumption. f_equal. symmetry. apply (average_Forall2 _ _ _ _ _ F). intros s s' HB. f_equal. symmetry. apply power_back; [lia|assumption].
Qed.

Lemma affine1 : forall n c d l l', 1 <= n -> l <> [] -> Forall2 (fun s s' => affine n c (d s') (fst s) (fst s')) l l' ->
  exists st st', add_samples None (samples1 n l) = Ok (Some st) /\ add_samples None (samples1 n l') = Ok (Some st') /\
    forall k, 0 < k < n -> mean st' [k] = option_map (Rmult (c ^ 2)) (mean st [k]).
Proof.
  intros n c d l l' Hn HL F. pose proof (Forall2_nonempty _ _ _ F HL) as HL'.
  destruct (structure1 n None l Hn (or_introl eq_refl) HL) as (st & E & _ & M).
  destruct (structure1 n None l' Hn (or_introl eq_refl) HL') as (st' & E' & _ & M').
  exists st, st'. split; [exact E|]. split; [exact E'|]. intros k Hk. destruct (M k ltac:(lia)) as [A B]. destruct (M' k ltac:(lia)) as [A' B'].
  destruct (Z.eq_dec (2 * k) n) as [Q|Q]; [rewrite B, B' by assumption; reflexivity|].
  rewrite A, A' by assumption. cbn [option_map]. f_equal. rewrite <- average_scale. symmetry. apply (average_Forall2 _ _ _ _ _ F).
  intros s s' HB. rewrite (power_affine n c (d s') (fst s) (fst s') k Hk HB). unfold Rdiv. ring.
Qed.

Lemma zero1 : forall n start l, 1 <= n -> fresh [n] start -> l <> [] ->
  exists st, add_samples start (samples1 n l) = Ok (Some st) /\
    mean st [0] = Some (average (fun s => sum_below n (fst s) ^ 2 / IZR n)%R l).
Proof.
  intros n start l Hn F HL. destruct (structure1 n start l Hn F HL) as (st & E & _ & M). exists st. split; [exact E|].
  rewrite (proj1 (M 0 ltac:(lia))) by (unfold nyquist; lia). f_equal. apply average_ext. intros s _. now rewrite power_zero.
Qed.

Lemma even2 : forall n m start l, 1 <= n -> 1 <= m -> n mod 2 = m mod 2 -> fresh [n; m] start -> l <> [] ->
  exists st, add_samples start (samples2 n m l) = Ok (Some st) /\
    forall i j, 0 < i < n -> 0 < j < m -> same_sign n m i j -> mean st [opposite n i; opposite m j] = mean st [i; j].
Proof.
  intros n m start l Hn Hm HP F HL. destruct (structure2 n m start l Hn Hm HP F HL) as (st & E & _ & M). exists st. split; [exact E|].
  intros i j Hi Hj S. unfold opposite.
  rewrite <- (Z_mod_plus_full (- i) 1 n), <- (Z_mod_plus_full (- j) 1 m), !Z.mod_small by lia.
  replace (- i + 1 * n) with (n - i) by lia. replace (- j + 1 * m) with (m - j) by lia.
  rewrite (proj1 (M i j ltac:(lia) ltac:(lia)) S), (proj1 (M (n - i) (m - j) ltac:(lia) ltac:(lia))) by (unfold same_sign in S; lia).
  f_equal. apply average_ext. intros s _. now rewrite power2_opp by lia.
Qed.

Lemma back2 : forall n m l l', 1 <= n -> 1 <= m -> n mod 2 = m mod 2 -> l <> [] -> Forall2 (fun s s' => backwards2 n m (fst s) (fst s')) l l' ->
  exists st st', add_samples None (samples2 n m l) = Ok (Some st) /\ add_samples None (samples2 n m l') = Ok (Some st') /\
    forall i j, 0 <= i < n -> 0 <= j < m -> same_sign n m i j -> mean st' [i; j] = mean st [i; j].
Proof.
  intros n m l l' Hn Hm HP HL F. pose proof (Forall2_nonempty _ _ _ F HL) as HL'.
  destruct (structure2 n m None l Hn Hm HP (or_introl eq_refl) HL) as (st & E & _ & M).
  destruct (structure2 n m None l' Hn Hm HP (or_introl eq_refl) HL') as (st' & E' & _ & M').
  exists st, st'. split; [exact E|]. split; [exact E'|]. intros i j Hi Hj Q.
  rewrite (proj1 (M i j Hi Hj) Q), (proj1 (M' i j Hi Hj) Q). f_equal. symmetry. apply (average_Forall2 _ _ _ _ _ F).
  intros s s' HB. f_equal. symmetry. apply power2_back; [lia|lia|assumption].
Qed.

Lemma affine_2 : forall n m c d l l', 1 <= n -> 1 <= m -> n mod 2 = m mod 2 -> l <> [] -> Forall2 (fun s s' => affine2 n m c (d s') (fst s) (fst s')) l l' ->
  exists st st', add_samples None (samples2 n m l) = Ok (Some st) /\ add_samples None (samples2 n m l') = Ok (Some st') /\
    forall i j, 0 <= i < n -> 0 <= j < m -> i <> 0 \/ j <> 0 -> same_sign n m i j -> mean st' [i; j] = option_map (Rmult (c ^ 2)) (mean st [i; j]).
Proof.
  intros n m c d l l' Hn Hm HP HL F. pose proof (Forall2_nonempty _ _ _ F HL) as HL'.
  destruct (structure2 n m None l Hn Hm HP (or_introl eq_refl) HL) as (st & E & _ & M).
  destruct (structure2 n m None l' Hn Hm HP (or_introl eq_refl) HL') as (st' & E' & _ & M').
  exists st, st'. split; [exact E|]. split; [exact E'|]. intros i j Hi Hj D Q.
  rewrite (proj1 (M i j Hi Hj) Q), (proj1 (M' i j Hi Hj) Q). cbn [option_map]. f_equal. rewrite <- average_scale. symmetry. apply (average_Forall2 _ _ _ _ _ F).
  intros s s' HB. rewrite (power2_affine n m c (d s') (fst s) (fst s') i j Hi Hj D HB). unfold Rdiv. ring.
Qed.

Lemma transposed2 : forall n m l l', 1 <= n -> 1 <= m -> n mod 2 = m mod 2 -> l <> [] -> Forall2 (fun s s' => transposed n m (fst s) (fst s')) l l' ->
  exists st st', add_samples None (samples2 n m l) = Ok (Some st) /\ add_samples None (samples2 m n l') = Ok (Some st') /\
    forall i j, 0 <= i < n -> 0 <= j < m -> same_sign n m i j -> mean st' [j; i] = mean st [i; j].
Proof.
  intros n m l l' Hn Hm HP HL F. pose proof (Forall2_nonempty _ _ _ F HL) as HL'.
  destruct (structure2 n m None l Hn Hm HP (or_introl eq_refl) HL) as (st & E & _ & M).
  destruct (structure2 m n None l' Hm Hn (eq_sym HP) (or_introl eq_refl) HL') as (st' & E' & _ & M').
  exists st, st'. split; [exact E|]. split; [exact E'|]. intros i j Hi Hj Q.
  rewrite (proj1 (M i j Hi Hj) Q), (proj1 (M' j i Hj Hi)) by (unfold same_sign in Q; lia). f_equal. symmetry. apply (average_Forall2 _ _ _ _ _ F).
  intros s s' HB. rewrite (power2_transposed n m (fst s) (fst s') i j) by (assumption || lia). rewrite (Z.mul_comm m n). reflexivity.
Qed.

(** A sample flipped along one axis: the entries of positive frequencies of the one are not the
    entries of mixed frequencies of the other. *)
Lemma flipped_refuted : exists n m u u' i j, flipped_columns n m u u' /\ 0 < i < n /\ 0 < j < m /\ same_sign n m i j /\
  forall junk, exists st st', add_sample None (Data2 n m u) junk = Ok st /\ add_sample None (Data2 n m u') junk = Ok st' /\
    mean st' [i; j] = Some (/ 16)%R /\ mean st [i; opposite m j] = Some (- / 16)%R.
Proof.
  exists 4, 4, (delta 1 0), (delta 1 3), 1, 1.
  split. { intros a b Ha Hb. unfold delta. now replace (4 - 1 - b =? 0) with (b =? 3) by lia. }
  split; [lia|]. split; [lia|]. split; [left; lia|]. intro junk.
  destruct (structure2_all 4 4 None [(delta 1 0, junk)]) as (st & E & _ & M); try lia; [now left|discriminate|].
  destruct (structure2 4 4 None [(delta 1 3, junk)]) as (st' & E' & _ & M'); try lia; [now left|discriminate|].
  apply one_sample in E, E'. exists st, st'. split; [exact E|]. split; [exact E'|]. split.
  - rewrite (proj1 (M' 1 1 ltac:(lia) ltac:(lia))) by lia. f_equal. rewrite average_one. cbn [fst].
    rewrite power2_delta by lia. change (4 * 4) with 16. lra.
  - change (opposite 4 1) with 3.
    rewrite (proj1 (M 1 3 ltac:(lia) ltac:(lia))) by (unfold nyquist; lia). f_equal.
    rewrite average_one. cbn [fst snd]. unfold entry2. if_false. if_true.
    change (start_of 4) with 3. change (3 - 3 + 1) with 1. change (4 - 1 - (3 - 3)) with 3.
    rewrite !fft2_delta by lia. unfold cmul. cbn [fst snd cast]. unfold wave2.
    replace (2 * PI * (1 * 1 / 4 + 0 * 1 / 4))%R with (PI / 2)%R by field.
    replace (2 * PI * (1 * 1 / 4 + 0 * 3 / 4))%R with (PI / 2)%R by field.
    rewrite cos_PI2, sin_PI2. change (4 * 4) with 16. field.
Qed.
