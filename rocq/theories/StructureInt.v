(** * StructureInt: samples that are arrays of integers; two refutations *)

From Coq Require Import ZArith List Bool Lia Reals Lra.
From Verif Require Import Base BaseLemmas Structure SpecStructure StructureProofs StructureProofs2 StructureTop.
Import ListNotations.
Open Scope Z_scope.

(** ** Truncation *)

Lemma truncate_pos : forall x, (0 <= x)%R -> (truncate x <= x < truncate x + 1)%R.
Proof.
  intros x H. unfold truncate. destruct (Rle_dec 0 x) as [_|N]; [|contradiction].
  destruct (base_Int_part x) as [A B]. lra.
Qed.

Lemma truncate_IZR : forall z, 0 <= z -> truncate (IZR z) = IZR z.
Proof.
  intros z H. destruct (truncate_pos (IZR z)) as [A B]; [now apply IZR_le|]. unfold truncate in *.
  destruct (Rle_dec 0 (IZR z)) as [_|N]; [|elim N; now apply IZR_le].
  apply le_IZR in A. rewrite <- plus_IZR in B. apply lt_IZR in B. f_equal. lia.
Qed.

Lemma average_lower : forall {A} (f g : A -> R) d l, l <> [] -> (0 < d)%R -> (forall x, In x l -> f x - d < g x <= f x)%R ->
  (average f l - d < average g l <= average f l)%R.
Proof.
  intros A f g d l HL Hd H. unfold average.
  assert (L : (0 < INR (length l))%R) by (apply lt_0_INR; destruct l; [congruence|cbn; lia]).
  assert (S : forall l : list A, (forall x, In x l -> f x - d < g x <= f x)%R ->
    (fold_right Rplus 0 (map g l) <= fold_right Rplus 0 (map f l))%R /\
    (l = [] \/ fold_right Rplus 0 (map f l) - INR (length l) * d < fold_right Rplus 0 (map g l))%R).
  { clear. induction l as [|x l IH]; intros H; [split; [apply Rle_refl|now left]|].
    destruct IH as [I1 I2]; [intros; apply H; now right|]. pose proof (H x (or_introl eq_refl)) as [B1 B2].
    cbn [map fold_right]. change (length (x :: l)) with (S (length l)). rewrite S_INR. split; [lra|]. right.
    destruct I2 as [->|I2]; [cbn [map fold_right length INR]; lra|]. lra. }
  destruct (S l H) as [S1 [S2|S2]]; [congruence|]. split.
  - apply Rmult_lt_reg_r with (INR (length l)); [exact L|]. unfold Rdiv.
    rewrite Rmult_minus_distr_r, !Rmult_assoc, Rinv_l by lra. lra.
  - apply Rmult_le_compat_r; [left; now apply Rinv_0_lt_compat|exact S1].
Qed.

Lemma divided : forall x y n, 0 < n -> (y <= x < y + 1)%R -> (x / IZR n - / IZR n < y / IZR n <= x / IZR n)%R.
Proof.
  intros x y n Hn [A B]. apply IZR_lt in Hn. pose proof (Rinv_0_lt_compat _ Hn) as I. unfold Rdiv. split.
  - replace (x * / IZR n - / IZR n)%R with ((x - 1) * / IZR n)%R by ring. apply Rmult_lt_compat_r; lra.
  - apply Rmult_le_compat_r; lra.
Qed.

(** ** One dimension *)

Lemma integers1 : forall n start l, 1 <= n -> fresh [n] start -> l <> [] ->
  exists st st', add_samples start (samples1 n (as_float1 l)) = Ok (Some st) /\
    add_samples start (int_samples1 n l) = Ok (Some st') /\
    (forall k, 0 <= k < n -> ~ nyquist n k -> exists x y, mean st [k] = Some x /\ mean st' [k] = Some y /\ (x - / IZR n < y <= x)%R) /\
    (forall k, 0 <= k < n -> ~ nyquist n k -> (forall s, In s l -> exists z, power n (fun j => IZR (fst s j)) k = IZR z) -> mean st' [k] = mean st [k]) /\
    (forall k, 0 <= k < n -> nyquist n k -> mean st [k] = None /\ mean st' [k] = None).
Proof.
  intros n start l Hn HF HL.
  destruct (structure1 n start (as_float1 l) Hn HF) as (st & E & _ & M); [destruct l; [congruence|discriminate]|].
  destruct (structure1_all n start (int_samples1 n l) Hn HF) as (st' & E' & _ & M').
  { destruct l; [congruence|discriminate]. }
  { apply Forall_forall. intros x Hx. apply in_map_iff in Hx. destruct Hx as (s & <- & _). reflexivity. }
  assert (V : forall k, 0 <= k < n -> ~ nyquist n k -> mean st' [k] = Some (average (fun s => truncate (power n (fun j => IZR (fst s j)) k) / IZR n)%R l)).
  { intros k Hk Q. rewrite (proj1 (M' k Hk) Q). f_equal. unfold int_samples1. rewrite average_map. apply average_ext. intros s _.
    unfold value1. cbn [fst snd nth]. unfold nyquist in Q. replace (2 * k =? n) with false by lia. reflexivity. }
  assert (W : forall k, 0 <= k < n -> ~ nyquist n k -> mean st [k] = Some (average (fun s => power n (fun j => IZR (fst s j)) k / IZR n)%R l)).
  { intros k Hk Q. rewrite (proj1 (M k Hk) Q). f_equal. unfold as_float1. now rewrite average_map. }
  exists st, st'. split; [exact E|]. split; [exact E'|]. split; [|split].
  - intros k Hk Q. eexists _, _. split; [exact (W k Hk Q)|]. split; [exact (V k Hk Q)|].
    apply average_lower; [exact HL|apply Rinv_0_lt_compat; apply IZR_lt; lia|]. intros s _. apply divided; [lia|]. apply truncate_pos, power_nonneg.
  - intros k Hk Q H. rewrite (W k Hk Q), (V k Hk Q). f_equal. apply average_ext. intros s Hs. destruct (H s Hs) as (z & Ez).
    pose proof (power_nonneg n (fun j => IZR (fst s j)) k) as P. rewrite Ez in *. rewrite truncate_IZR; [reflexivity|]. now apply le_IZR.
  - intros k Hk Q. split; [apply (proj2 (M k Hk) Q)|apply (proj2 (M' k Hk) Q)].
Qed.

(** ** Two dimensions *)

Lemma integers2 : forall n m start l, 1 <= n -> 1 <= m -> n mod 2 = m mod 2 -> fresh [n; m] start -> l <> [] ->
  exists st st', add_samples start (samples2 n m (as_float2 l)) = Ok (Some st) /\
    add_samples start (int_samples2 n m l) = Ok (Some st') /\
    forall i j, 0 <= i < n -> 0 <= j < m -> 2 * i < n /\ 2 * j < m \/ n < 2 * i /\ m < 2 * j ->
      exists x y, mean st [i; j] = Some x /\ mean st' [i; j] = Some y /\ (x - / IZR (n * m) < y <= x)%R.
Proof.
  intros n m start l Hn Hm HP HF HL.
  destruct (structure2 n m start (as_float2 l) Hn Hm HP HF) as (st & E & _ & M); [destruct l; [congruence|discriminate]|].
  destruct (structure2_any n m start (int_samples2 n m l) Hn Hm HP HF) as (st' & E' & _ & M').
  { destruct l; [congruence|discriminate]. }
  { apply Forall_forall. intros x Hx. apply in_map_iff in Hx. destruct Hx as (s & <- & _). reflexivity. }
  exists st, st'. split; [exact E|]. split; [exact E'|]. intros i j Hi Hj Q.
  eexists _, _. split; [exact (proj1 (M i j Hi Hj) Q)|]. split; [apply (M' i j Hi Hj); unfold nyquist; lia|].
  unfold as_float2, int_samples2. rewrite !average_map. apply average_lower; [exact HL|apply Rinv_0_lt_compat; apply IZR_lt; nia|].
  intros s _. cbn [fst snd]. unfold value2. cbn [fst snd nth].
  replace (entry2 Integer n m (fun a b => IZR (fst s a b)) (snd s) i j) with (truncate (power2 n m (fun a b => IZR (fst s a b)) i j)).
  - apply divided; [nia|]. apply truncate_pos, power2_nonneg.
  - unfold entry2. if_false. if_false. if_false. reflexivity.
Qed.

(** ** What is lost *)

Lemma pair_power : forall k, 0 <= k -> power 8 (fun j => IZR (if j <? 2 then 1 else 0)) k = (2 + 2 * cos (IZR k * (PI / 4)))%R.
Proof.
  intros k Hk. unfold power, sum_below. change (zrange 0 8) with [0; 1; 2; 3; 4; 5; 6; 7].
  cbn [map fold_right Z.ltb Z.compare Pos.compare Pos.compare_cont].
  replace (2 * PI * (0 * IZR k / 8))%R with 0%R by field. replace (2 * PI * (1 * IZR k / 8))%R with (IZR k * (PI / 4))%R by field.
  rewrite cos_0, sin_0. pose proof (sin2_cos2 (IZR k * (PI / 4))) as T. unfold Rsqr in T.
  set (c := cos (IZR k * (PI / 4))) in *. set (s := sin (IZR k * (PI / 4))) in *.
  transitivity (1 + 2 * c + (s * s + c * c))%R; [ring|]. rewrite T. ring.
Qed.

Lemma cos_3PI4' : cos (3 * (PI / 4)) = (- / sqrt 2)%R.
Proof. rewrite cos_3PI4. unfold Rdiv. ring. Qed.

Lemma lost : exists n u k, 0 <= k < n /\ ~ nyquist n k /\ (forall j, u j = 0 \/ u j = 1) /\
  forall junk, exists st st', add_sample None (IntData1 n u) junk = Ok st /\ add_sample None (Data1 n (fun j => IZR (u j))) junk = Ok st' /\
    mean st [k] = Some 0%R /\ exists x, mean st' [k] = Some x /\ (/ 16 < x)%R.
Proof.
  exists 8, (fun j => if j <? 2 then 1 else 0), 3. unfold nyquist. split; [lia|]. split; [lia|]. split; [intros j; destruct (j <? 2); auto|].
  intros junk. set (u := fun j => if j <? 2 then 1 else 0) in *.
  assert (P : power 8 (fun j => IZR (u j)) 3 = (2 - sqrt 2)%R).
  { unfold u. rewrite pair_power by lia. rewrite cos_3PI4'. pose proof (sqrt_sqrt 2 ltac:(lra)) as S. pose proof (Rlt_sqrt2_0) as L.
    replace (/ sqrt 2)%R with (sqrt 2 / 2)%R; [lra|]. rewrite <- S at 2. field. lra. }
  assert (B : (1 < sqrt 2 < 3 / 2)%R).
  { pose proof (sqrt_sqrt 2 ltac:(lra)) as S. pose proof Rlt_sqrt2_0 as L. split; [nra|nra]. }
  destruct (structure1_all 8 None [(IntData1 8 u, junk)]) as (s1 & E1 & _ & M1); [lia|now left|discriminate|constructor; [reflexivity|constructor]|].
  destruct (structure1_all 8 None [(Data1 8 (fun j => IZR (u j)), junk)]) as (s2 & E2 & _ & M2); [lia|now left|discriminate|constructor; [reflexivity|constructor]|].
  apply one_sample in E1, E2. exists s1, s2. split; [exact E1|]. split; [exact E2|].
  rewrite (proj1 (M1 3 ltac:(lia))), (proj1 (M2 3 ltac:(lia))) by (unfold nyquist; lia).
  rewrite !average_one. unfold value1. cbn [fst snd nth]. change (2 * 3 =? 8) with false. cbv iota. rewrite P. split.
  - f_equal. assert (T : truncate (2 - sqrt 2) = 0%R); [|rewrite T; unfold Rdiv; ring].
    destruct (truncate_pos (2 - sqrt 2)) as [A C]; [lra|]. unfold truncate in *. destruct (Rle_dec 0 (2 - sqrt 2)) as [_|N]; [|lra].
    set (z := Int_part (2 - sqrt 2)) in *. assert (IZR z < 1)%R by lra. assert (-1 < IZR z)%R by lra.
    apply lt_IZR in H, H0. f_equal. lia.
  - eexists. split; [reflexivity|]. lra.
Qed.

(** ** Entries of one positive and one negative frequency depend on the origin *)

Lemma entry_13 : forall a junk, 0 <= a < 4 -> entry2 Float 4 4 (delta a 0) junk 1 3 = cos (IZR a * PI).
Proof.
  intros a junk Ha. unfold entry2. cbn [Z.eqb Z.mul Pos.mul Z.gtb Z.ltb Z.compare Pos.compare Pos.compare_cont andb orb Pos.eqb].
  change (start_of 4) with 3. change (3 - 3 + 1) with 1. change (4 - 1 - (3 - 3)) with 3.
  rewrite !fft2_delta by lia. unfold cmul. cbn [fst snd cast]. unfold wave2.
  replace (2 * PI * (IZR a * 1 / 4 + 0 * 1 / 4))%R with (IZR a * PI / 2)%R by field.
  replace (2 * PI * (IZR a * 1 / 4 + 0 * 3 / 4))%R with (IZR a * PI / 2)%R by field.
  set (X := (IZR a * PI / 2)%R). replace (IZR a * PI)%R with (X + X)%R by (unfold X; field). rewrite cos_plus. ring.
Qed.

Lemma origin2_refuted : exists n m u u' s t i j, 0 <= s /\ 0 <= t /\ rotated2 n m s t u u' /\
  0 <= i < n /\ 0 <= j < m /\ ~ nyquist n i /\ ~ nyquist m j /\
  forall junk, exists st st', add_sample None (Data2 n m u) junk = Ok st /\ add_sample None (Data2 n m u') junk = Ok st' /\
    mean st [i; j] = Some (/ 16)%R /\ mean st' [i; j] = Some (- / 16)%R.
Proof.
  exists 4, 4, (delta 0 0), (delta 1 0), 1, 0, 1, 3. unfold nyquist. split; [lia|]. split; [lia|].
  split.
  { intros a b Ha Hb. unfold delta. rewrite Z.add_0_r, (Z.mod_small b 4) by lia.
    assert (A : a = 0 \/ a = 1 \/ a = 2 \/ a = 3) by lia. destruct A as [->|[->|[->| ->]]]; reflexivity. }
  do 4 (split; [lia|]). intros junk.
  destruct (structure2_all 4 4 None [(delta 0 0, junk)]) as (st & E & _ & M); try lia; [now left|discriminate|].
  destruct (structure2_all 4 4 None [(delta 1 0, junk)]) as (st' & E' & _ & M'); try lia; [now left|discriminate|].
  apply one_sample in E, E'. exists st, st'. split; [exact E|]. split; [exact E'|].
  rewrite (proj1 (M 1 3 ltac:(lia) ltac:(lia))), (proj1 (M' 1 3 ltac:(lia) ltac:(lia))) by (unfold nyquist; lia).
  rewrite !average_one. cbn [fst snd]. rewrite !entry_13 by lia.
  rewrite Rmult_0_l, cos_0, Rmult_1_l, cos_PI. change (4 * 4) with 16. split; f_equal; lra.
Qed.

Lemma sum_int : forall n (u : Z -> Z), 0 <= n -> exists z, sum_below n (fun j => IZR (u j)) = IZR z.
Proof.
  intros n u. revert n. apply natlike_ind; [exists 0; apply sum_0|]. intros n Hn (z & IH). unfold Z.succ. rewrite sum_succ, IH by assumption.
  exists (z + u n). now rewrite plus_IZR.
Qed.

Lemma power_0_int : forall n (u : Z -> Z), 1 <= n -> exists z, power n (fun j => IZR (u j)) 0 = IZR z.
Proof.
  intros n u Hn. destruct (sum_int n u ltac:(lia)) as (z & Hz). exists (z * z). unfold power.
  rewrite (sum_ext n (fun j => IZR (u j) * cos _)%R (fun j => IZR (u j))), (sum_ext n (fun j => IZR (u j) * sin _)%R (fun j => 0 * IZR (u j))%R).
  - rewrite sum_scal, Hz, mult_IZR by lia. ring.
  - intros j _. replace (2 * PI * (IZR j * 0 / IZR n))%R with 0%R by (unfold Rdiv; ring). rewrite sin_0. ring.
  - intros j _. replace (2 * PI * (IZR j * 0 / IZR n))%R with 0%R by (unfold Rdiv; ring). rewrite cos_0. ring.
Qed.

Lemma integers_zero : forall n start l, 1 <= n -> fresh [n] start -> l <> [] ->
  exists st st', add_samples start (samples1 n (as_float1 l)) = Ok (Some st) /\
    add_samples start (int_samples1 n l) = Ok (Some st') /\ mean st' [0] = mean st [0].
Proof.
  intros n start l Hn HF HL. destruct (integers1 n start l Hn HF HL) as (st & st' & E & E' & _ & H & _).
  exists st, st'. split; [exact E|]. split; [exact E'|]. apply H; [lia|unfold nyquist; lia|]. intros s _. now apply power_0_int.
Qed.

Lemma integers_close : forall n start l, 1 <= n -> fresh [n] start -> l <> [] ->
  exists st st', add_samples start (samples1 n (as_float1 l)) = Ok (Some st) /\
    add_samples start (int_samples1 n l) = Ok (Some st') /\
    forall k, 0 <= k < n -> ~ nyquist n k -> exists x y, mean st [k] = Some x /\ mean st' [k] = Some y /\ (x - / IZR n < y <= x)%R.
Proof.
  intros n start l Hn HF HL. destruct (integers1 n start l Hn HF HL) as (st & st' & E & E' & H & _). eauto 6.
Qed.
