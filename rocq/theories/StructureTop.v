(** * StructureTop: histories of samples, frequencies, refutations *)

From Coq Require Import ZArith List Bool Lia Reals Lra.
From Verif Require Import Base BaseLemmas Structure SpecStructure StructureProofs StructureProofs2.
Import ListNotations.
Open Scope Z_scope.

(** ** Histories *)
Section History.
  Variable shape : list Z.
  Variable I : list Z -> Prop.
  Variable V : data * (Z -> Z -> R) -> list Z -> R.

  Definition contributes (x : data * (Z -> Z -> R)) : Prop :=
    exists f, (forall st, add_sample st (fst x) (snd x) = accumulate st shape f) /\
              (forall i, I i -> f i = V x i).

  Lemma shape_refl : forall s, shape_eqb s s = true.
  Proof. intro s. unfold shape_eqb. destruct (list_eq_dec Z.eq_dec s s); congruence. Qed.

  Lemma history_from : forall l st, (forall x, In x l -> contributes x) -> st_shape st = shape ->
    exists st', add_samples (Some st) l = Ok (Some st') /\ st_shape st' = shape /\
      st_norm st' = st_norm st + lenZ l /\
      forall i, I i -> st_first st' i =
        match st_first st i with Some y => Some (y + fold_right Rplus 0 (map (fun x => V x i) l))%R | None => None end.
  Proof.
    induction l as [|x t IH]; intros st H HS.
    - exists st. split; [reflexivity|]. split; [assumption|]. split; [unfold lenZ; cbn; lia|].
      intros i _. cbn. destruct (st_first st i); [f_equal; ring|reflexivity].
    - destruct (H x (or_introl eq_refl)) as (f & E & F). unfold add_samples. cbn [foldM].
      rewrite E. unfold accumulate. cbn [bind]. rewrite HS, shape_refl. cbn [bind].
      match goal with |- context [Some ?s] => match s with mkstat _ _ _ => set (st1 := s) end end.
      destruct (IH st1) as (st' & E' & S' & N' & F'); [intros; apply H; now right|reflexivity|].
      exists st'. split; [exact E'|]. split; [exact S'|]. split; [rewrite N'; unfold lenZ; cbn [st_norm st1 length]; lia|].
      intros i Hi. rewrite F' by assumption. unfold st1. cbn [st_first]. destruct (st_first st i); [|reflexivity].
      cbn [map fold_right]. rewrite F by assumption. f_equal. ring.
  Qed.

  Lemma history : forall st0 start l, allocate shape = Ok st0 -> st_shape st0 = shape -> st_norm st0 = 0 ->
    start = None \/ start = Some st0 -> l <> [] -> (forall x, In x l -> contributes x) ->
    (forall i, I i -> st_first st0 i = None \/ st_first st0 i = Some 0%R) ->
    exists st', add_samples start l = Ok (Some st') /\ st_shape st' = shape /\
      forall i, I i -> mean st' i =
        match st_first st0 i with Some _ => Some (average (fun x => V x i) l) | None => None end.
  Proof.
    intros st0 start l A HS HN HI HL H HF.
    destruct (history_from l st0 H HS) as (st' & E & S' & N & F).
    exists st'. split; [|split; [exact S'|]].
    - destruct HI as [-> | ->]; [|exact E]. rewrite <- E. destruct l as [|x t]; [congruence|].
      unfold add_samples. cbn [foldM]. destruct (H x (or_introl eq_refl)) as (f & Ef & _). rewrite !Ef.
      unfold accumulate. rewrite A. reflexivity.
    - intros i Hi. unfold mean. rewrite F by assumption. destruct (HF i Hi) as [-> | ->]; [reflexivity|].
      f_equal. unfold average. rewrite N, HN, Z.add_0_l. unfold lenZ. rewrite <- INR_IZR_INZ.
      rewrite Rplus_0_l. reflexivity.
  Qed.
End History.

Lemma average_map : forall {A B} (g : A -> B) f l, average f (map g l) = average (fun x => f (g x)) l.
Proof. intros. unfold average. now rewrite map_map, map_length. Qed.

Lemma average_ext : forall {A} (f g : A -> R) l, (forall x, In x l -> f x = g x) -> average f l = average g l.
Proof. intros A f g l H. unfold average. f_equal. f_equal. now apply map_ext_in. Qed.

Definition value1 (x : data * (Z -> Z -> R)) (i : list Z) : R :=
  match fst x with
  | Data1 n u => ((if (2 * nth 0 i 0 =? n)%Z then snd x 0%Z (nth 0%nat i 0%Z) else power n u (nth 0%nat i 0%Z)) / IZR n)%R
  | IntData1 n u => ((if (2 * nth 0 i 0 =? n)%Z then snd x 0%Z (nth 0%nat i 0%Z) else truncate (power n (fun j => IZR (u j)) (nth 0%nat i 0%Z))) / IZR n)%R
  | _ => 0%R
  end.

Definition value2 (x : data * (Z -> Z -> R)) (i : list Z) : R :=
  match fst x with
  | Data2 n m u => (entry2 Float n m u (snd x) (nth 0%nat i 0%Z) (nth 1%nat i 0%Z) / IZR (n * m))%R
  | IntData2 n m u => (entry2 Integer n m (fun a b => IZR (u a b)) (snd x) (nth 0%nat i 0%Z) (nth 1%nat i 0%Z) / IZR (n * m))%R
  | _ => 0%R
  end.

Lemma structure1_all : forall n start xs, 1 <= n -> fresh [n] start -> xs <> [] -> Forall (fun x => shape_of (fst x) = [n]) xs ->
  exists st, add_samples start xs = Ok (Some st) /\ st_shape st = [n] /\
    forall k, 0 <= k < n ->
      (~ nyquist n k -> mean st [k] = Some (average (fun x => value1 x [k]) xs)) /\
      (nyquist n k -> mean st [k] = None).
Proof.
  intros n start xs Hn HF HL HS. rewrite Forall_forall in HS.
  destruct (history [n] (fun i => exists k, i = [k] /\ 0 <= k < n) value1
    (mkstat [n] (fun i => if (n mod 2 =? 0) && (nth 0 i 0 =? n / 2) then None else Some 0%R) 0)
    start xs) as (st & E & SH & M).
  - reflexivity.
  - reflexivity.
  - reflexivity.
  - destruct HF as [-> |(s & A & ->)]; [now left|]. right. injection A as <-. reflexivity.
  - exact HL.
  - intros [d junk] Hx. specialize (HS _ Hx). cbn [fst] in HS.
    destruct d as [n' u|n' m u|n' u|n' m u]; cbn [shape_of] in HS; try discriminate; injection HS as ->;
    [destruct (sample1_ok Float n u (junk 0) Hn) as (r & Er & Hr)|destruct (sample1_ok Integer n (fun j => IZR (u j)) (junk 0) Hn) as (r & Er & Hr)];
    (exists (fun i => vat r (nth 0 i 0)); split;
     [intro st; cbn [add_sample fst snd]; now rewrite Er|
      intros i (k & -> & Hk); cbn [nth]; unfold value1; cbn [fst snd nth];
      destruct (Hr k Hk) as [H1 H2]; unfold nyquist in *; destruct (2 * k =? n) eqn:Q; [apply H2; lia|apply H1; lia]]).
  - intros i _. cbn [st_first]. destruct (_ && _); auto.
  - exists st. split; [exact E|]. split; [exact SH|]. intros k Hk. rewrite M by eauto. cbn [st_first nth].
    unfold nyquist. split; intro Q.
    + replace ((n mod 2 =? 0) && (k =? n / 2)) with false by (Z.to_euclidean_division_equations; lia). reflexivity.
    + replace ((n mod 2 =? 0) && (k =? n / 2)) with true by (Z.to_euclidean_division_equations; lia).
      reflexivity.
Qed.

Lemma structure1 : forall n start l, 1 <= n -> fresh [n] start -> l <> [] ->
  exists st, add_samples start (samples1 n l) = Ok (Some st) /\ st_shape st = [n] /\
    forall k, 0 <= k < n ->
      (~ nyquist n k -> mean st [k] = Some (average (fun s => power n (fst s) k / IZR n)%R l)) /\
      (nyquist n k -> mean st [k] = None).
Proof.
  intros n start l Hn HF HL. destruct (structure1_all n start (samples1 n l) Hn HF) as (st & E & SH & M).
  - destruct l; [congruence|discriminate].
  - apply Forall_forall. intros x Hx. apply in_map_iff in Hx. destruct Hx as (s & <- & _). reflexivity.
  - exists st. split; [exact E|]. split; [exact SH|]. intros k Hk. destruct (M k Hk) as [M1 M2]. split; [|exact M2].
    intro Q. rewrite M1 by assumption. f_equal. unfold samples1. rewrite average_map. apply average_ext. intros x _. unfold value1. cbn [fst snd nth].
    unfold nyquist in Q. replace (2 * k =? n) with false by lia. reflexivity.
Qed.

Lemma structure2_any : forall n m start xs, 1 <= n -> 1 <= m -> n mod 2 = m mod 2 -> fresh [n; m] start -> xs <> [] ->
  Forall (fun x => shape_of (fst x) = [n; m]) xs ->
  exists st, add_samples start xs = Ok (Some st) /\ st_shape st = [n; m] /\
    forall i j, 0 <= i < n -> 0 <= j < m ->
      (~ nyquist n i -> ~ nyquist m j -> mean st [i; j] = Some (average (fun x => value2 x [i; j]) xs)) /\
      (nyquist n i \/ nyquist m j -> mean st [i; j] = None).
Proof.
  intros n m start xs Hn Hm HP HF HL HS. rewrite Forall_forall in HS.
  assert (A : allocate [n; m] = Ok (mkstat [n; m]
    (fun i => if (n mod 2 =? 0) && ((nth 0 i 0 =? n / 2) || (nth 1 i 0 =? m / 2)) then None else Some 0%R) 0)).
  { unfold allocate. rewrite HP, Bool.eqb_reflx. reflexivity. }
  destruct (history [n; m] (fun i => exists a b, i = [a; b] /\ 0 <= a < n /\ 0 <= b < m) value2
    _ start xs A) as (st & E & SH & M).
  - reflexivity.
  - reflexivity.
  - destruct HF as [-> |(s & A' & ->)]; [now left|]. right. congruence.
  - exact HL.
  - intros [d junk] Hx. specialize (HS _ Hx). cbn [fst] in HS.
    destruct d as [n' u|n' m' u|n' u|n' m' u]; cbn [shape_of] in HS; try discriminate; injection HS as -> ->;
    [destruct (sample2_ok Float n m u junk Hn Hm) as (r & Er & Hr)|destruct (sample2_ok Integer n m (fun a b => IZR (u a b)) junk Hn Hm) as (r & Er & Hr)];
    (exists (fun i => mat_at r (nth 0 i 0) (nth 1 i 0)); split;
     [intro st; cbn [add_sample fst snd]; now rewrite Er|
      intros i (a & b & -> & Ha & Hb); cbn [nth]; unfold value2; cbn [fst snd nth]; now apply Hr]).
  - intros i _. cbn [st_first]. destruct (_ && _); auto.
  - exists st. split; [exact E|]. split; [exact SH|]. intros i j Hi Hj. rewrite M by eauto 6. cbn [st_first nth].
    unfold nyquist. split.
    + intros Q1 Q2.
      replace ((n mod 2 =? 0) && ((i =? n / 2) || (j =? m / 2))) with false by (Z.to_euclidean_division_equations; lia).
      reflexivity.
    + intro Q.
      replace ((n mod 2 =? 0) && ((i =? n / 2) || (j =? m / 2))) with true by (Z.to_euclidean_division_equations; lia).
      reflexivity.
Qed.

Lemma structure2_all : forall n m start l, 1 <= n -> 1 <= m -> n mod 2 = m mod 2 -> fresh [n; m] start -> l <> [] ->
  exists st, add_samples start (samples2 n m l) = Ok (Some st) /\ st_shape st = [n; m] /\
    forall i j, 0 <= i < n -> 0 <= j < m ->
      (~ nyquist n i -> ~ nyquist m j ->
         mean st [i; j] = Some (average (fun s => entry2 Float n m (fst s) (snd s) i j / IZR (n * m))%R l)) /\
      (nyquist n i \/ nyquist m j -> mean st [i; j] = None).
Proof.
  intros n m start l Hn Hm HP HF HL. destruct (structure2_any n m start (samples2 n m l) Hn Hm HP HF) as (st & E & SH & M).
  - destruct l; [congruence|discriminate].
  - apply Forall_forall. intros x Hx. apply in_map_iff in Hx. destruct Hx as (s & <- & _). reflexivity.
  - exists st. split; [exact E|]. split; [exact SH|]. intros i j Hi Hj. destruct (M i j Hi Hj) as [M1 M2]. split; [|exact M2].
    intros Q1 Q2. rewrite M1 by assumption. f_equal. unfold samples2. rewrite average_map. reflexivity.
Qed.

Lemma structure2 : forall n m start l, 1 <= n -> 1 <= m -> n mod 2 = m mod 2 -> fresh [n; m] start -> l <> [] ->
  exists st, add_samples start (samples2 n m l) = Ok (Some st) /\ st_shape st = [n; m] /\
    forall i j, 0 <= i < n -> 0 <= j < m ->
      (2 * i < n /\ 2 * j < m \/ n < 2 * i /\ m < 2 * j ->
         mean st [i; j] = Some (average (fun s => power2 n m (fst s) i j / IZR (n * m))%R l)) /\
      (nyquist n i \/ nyquist m j -> mean st [i; j] = None).
Proof.
  intros n m start l Hn Hm HP HF HL. destruct (structure2_all n m start l) as (st & E & SH & M); auto.
  exists st. split; [exact E|]. split; [exact SH|]. intros i j Hi Hj. destruct (M i j Hi Hj) as [M1 M2]. split; [|exact M2].
  intro Q. rewrite M1 by (unfold nyquist; lia). f_equal. apply average_ext. intros s _. unfold entry2. f_equal.
  if_false. if_false. if_false. reflexivity.
Qed.

Lemma parity_throws : forall n m u junk, 1 <= n -> 1 <= m -> n mod 2 <> m mod 2 ->
  add_sample None (Data2 n m u) junk = Throw.
Proof.
  intros n m u junk Hn Hm H. cbn [add_sample]. destruct (sample2_ok Float n m u junk Hn Hm) as (r & -> & _). cbn [bind].
  unfold accumulate, allocate. replace (Bool.eqb _ _) with false; [reflexivity|].
  pose proof (Z.mod_pos_bound n 2 ltac:(lia)). pose proof (Z.mod_pos_bound m 2 ltac:(lia)).
  destruct (n mod 2 =? 0) eqn:E1, (m mod 2 =? 0) eqn:E2; try reflexivity; lia.
Qed.

(** ** Refutations *)
Definition delta (a b : Z) : Z -> Z -> R := fun i j => if (i =? a) && (j =? b) then 1%R else 0%R.

Lemma one_sample : forall d junk st, add_samples None [(d, junk)] = Ok (Some st) -> add_sample None d junk = Ok st.
Proof.
  intros d junk st. unfold add_samples. cbn [foldM fst snd]. destruct (add_sample None d junk); cbn [bind]; congruence.
Qed.

Lemma average_one : forall {A} (f : A -> R) x, average f [x] = f x.
Proof. intros. unfold average. cbn [map fold_right length]. change (INR 1) with 1%R. field. Qed.

Lemma memory_refuted : exists n m u junk junk' i j st st', 0 <= i < n /\ 0 <= j < m /\
  ~ nyquist n i /\ ~ nyquist m j /\
  add_sample None (Data2 n m u) junk = Ok st /\ add_sample None (Data2 n m u) junk' = Ok st' /\
  mean st [i; j] <> mean st' [i; j].
Proof.
  destruct (structure2_all 3 3 None [(delta 0 0, fun _ _ => 0%R)]) as (st & E & SH & M); try lia; [now left|discriminate|].
  destruct (structure2_all 3 3 None [(delta 0 0, fun _ _ => 1%R)]) as (st' & E' & SH' & M'); try lia; [now left|discriminate|].
  apply one_sample in E, E'. cbn [fst snd] in E, E'.
  exists 3, 3, (delta 0 0), (fun _ _ => 0%R), (fun _ _ => 1%R), 0, 2, st, st'. unfold nyquist.
  do 4 (split; [lia|]). split; [exact E|]. split; [exact E'|].
  rewrite (proj1 (M 0 2 ltac:(lia) ltac:(lia))) by (unfold nyquist; lia).
  rewrite (proj1 (M' 0 2 ltac:(lia) ltac:(lia))) by (unfold nyquist; lia).
  rewrite !average_one. unfold entry2. cbn [fst snd Z.eqb Z.mul Z.gtb Z.compare Pos.mul Pos.compare Pos.compare_cont andb orb]. intro H. injection H as H. cbn [snd] in H. lra.
Qed.

Lemma sum_pick : forall n a (f : Z -> R), 0 <= a < n -> sum_below n (fun j => if j =? a then f j else 0%R) = f a.
Proof.
  intros n a f H. assert (P : forall k, 0 <= k -> sum_below k (fun j => if j =? a then f j else 0%R) = if k <=? a then 0%R else f a).
  { apply natlike_ind.
    - rewrite sum_0. now if_true.
    - intros k Hk IH. unfold Z.succ. rewrite sum_succ, IH by assumption.
      destruct (Z.lt_trichotomy k a) as [L|[->|L]].
      + replace (k <=? a) with true by lia. replace (k + 1 <=? a) with true by lia. replace (k =? a) with false by lia. ring.
      + rewrite Z.leb_refl, Z.eqb_refl. replace (a + 1 <=? a) with false by lia. ring.
      + replace (k <=? a) with false by lia. replace (k + 1 <=? a) with false by lia. replace (k =? a) with false by lia. ring. }
  rewrite P by lia. now if_false.
Qed.

Lemma sum_delta : forall n m a b (f : Z -> Z -> R), 0 <= a < n -> 0 <= b < m ->
  sum_below n (fun i => sum_below m (fun j => delta a b i j * f i j))%R = f a b.
Proof.
  intros n m a b f Ha Hb. rewrite (sum_ext n _ (fun i => if i =? a then f i b else 0%R)); [now apply (sum_pick n a (fun i => f i b))|].
  intros i _. unfold delta. destruct (i =? a).
  - rewrite (sum_ext m _ (fun j => if j =? b then f i j else 0%R)); [now apply (sum_pick m b (f i))|].
    intros j _. cbn [andb]. destruct (j =? b); ring.
  - cbn [andb]. rewrite sum_scal by lia. ring.
Qed.

Lemma fft2_delta : forall n m a b k l, 0 <= a < n -> 0 <= b < m ->
  fft2 n m (delta a b) k l = (cos (wave2 n m a b k l), (- sin (wave2 n m a b k l))%R).
Proof.
  intros n m a b k l Ha Hb. rewrite (surjective_pairing (fft2 n m (delta a b) k l)). rewrite fft2_fst, fft2_snd by lia.
  now rewrite !sum_delta.
Qed.

Lemma power2_delta : forall n m a b k l, 0 <= a < n -> 0 <= b < m -> power2 n m (delta a b) k l = 1%R.
Proof.
  intros n m a b k l Ha Hb. unfold power2. rewrite !sum_delta by assumption.
  rewrite Rplus_comm, <- !Rsqr_pow2. apply sin2_cos2.
Qed.

Lemma mixed_refuted : exists n m u i j, 0 <= i < n /\ 0 <= j < m /\ ~ nyquist n i /\ ~ nyquist m j /\
  (forall k l, power2 n m u k l = 1%R) /\
  forall junk, exists st, add_sample None (Data2 n m u) junk = Ok st /\ mean st [i; j] = Some (- / 16)%R.
Proof.
  exists 4, 4, (delta 1 0), 1, 3. unfold nyquist. do 4 (split; [lia|]).
  split; [intros; apply power2_delta; lia|]. intro junk.
  destruct (structure2_all 4 4 None [(delta 1 0, junk)]) as (st & E & SH & M); try lia; [now left|discriminate|].
  apply one_sample in E. exists st. split; [exact E|].
  rewrite (proj1 (M 1 3 ltac:(lia) ltac:(lia))) by (unfold nyquist; lia). f_equal.
  rewrite average_one. cbn [fst snd]. unfold entry2. if_false. if_true.
  change (start_of 4) with 3. change (3 - 3 + 1) with 1. change (4 - 1 - (3 - 3)) with 3.
  rewrite !fft2_delta by lia. unfold cmul. cbn [fst snd cast]. unfold wave2.
  replace (2 * PI * (1 * 1 / 4 + 0 * 1 / 4))%R with (PI / 2)%R by field.
  replace (2 * PI * (1 * 1 / 4 + 0 * 3 / 4))%R with (PI / 2)%R by field.
  rewrite cos_PI2, sin_PI2. change (4 * 4) with 16. field.
Qed.

(** ** Moving a sample around the box *)
Lemma wave_turns : forall n j t k, 0 < n ->
  wave n ((j + t) mod n) k = (wave n j k + wave n t k + 2 * PI * IZR (- ((j + t) / n * k)))%R.
Proof.
  intros n j t k H. assert (E : (j + t) mod n = j + t - n * ((j + t) / n)) by (pose proof (Z.div_mod (j + t) n); lia).
  rewrite E. unfold wave. rewrite minus_IZR, plus_IZR, opp_IZR, !mult_IZR. apply IZR_lt in H. field. lra.
Qed.

Lemma power_rotated : forall n t u u' k, 0 < n -> 0 <= t -> rotated n t u u' -> power n u' k = power n u k.
Proof.
  intros n t u u' k Hn Ht H. unfold power.
  change (fun j => u' j * cos (2 * PI * (IZR j * IZR k / IZR n)))%R with (fun j => u' j * cos (wave n j k))%R.
  change (fun j => u' j * sin (2 * PI * (IZR j * IZR k / IZR n)))%R with (fun j => u' j * sin (wave n j k))%R.
  change (fun j => u j * cos (2 * PI * (IZR j * IZR k / IZR n)))%R with (fun j => u j * cos (wave n j k))%R.
  change (fun j => u j * sin (2 * PI * (IZR j * IZR k / IZR n)))%R with (fun j => u j * sin (wave n j k))%R.
  rewrite <- (sum_rotate n (fun j => u' j * cos (wave n j k))%R t), <- (sum_rotate n (fun j => u' j * sin (wave n j k))%R t) by assumption.
  set (c := cos (wave n t k)). set (s := sin (wave n t k)).
  rewrite (sum_ext n (fun j => u' ((j + t) mod n)%Z * cos (wave n ((j + t) mod n) k))%R
    (fun j => c * (u j * cos (wave n j k)) + - s * (u j * sin (wave n j k)))%R).
  2: { intros j Hj. rewrite H, wave_turns, cos_turns, cos_plus by assumption. unfold c, s. ring. }
  rewrite (sum_ext n (fun j => u' ((j + t) mod n)%Z * sin (wave n ((j + t) mod n) k))%R
    (fun j => s * (u j * cos (wave n j k)) + c * (u j * sin (wave n j k)))%R).
  2: { intros j Hj. rewrite H, wave_turns, sin_turns, sin_plus by assumption. unfold c, s. ring. }
  rewrite !sum_plus, !sum_scal by lia.
  pose proof (sin2_cos2 (wave n t k)) as T. fold c s in T. unfold Rsqr in T.
  set (A := sum_below n (fun j => u j * cos (wave n j k))%R). set (B := sum_below n (fun j => u j * sin (wave n j k))%R).
  transitivity ((s * s + c * c) * (A ^ 2 + B ^ 2))%R; [ring|]. rewrite T. ring.
Qed.

Lemma wave2_turns : forall n m a b s t k l, 0 < n -> 0 < m ->
  wave2 n m ((a + s) mod n) ((b + t) mod m) k l =
  (wave2 n m a b k l + wave2 n m s t k l + 2 * PI * IZR (- ((a + s) / n * k + (b + t) / m * l)))%R.
Proof.
  intros n m a b s t k l Hn Hm.
  assert (E : (a + s) mod n = a + s - n * ((a + s) / n)) by (pose proof (Z.div_mod (a + s) n); lia).
  assert (E' : (b + t) mod m = b + t - m * ((b + t) / m)) by (pose proof (Z.div_mod (b + t) m); lia).
  rewrite E, E'. unfold wave2. rewrite !minus_IZR, opp_IZR, !plus_IZR, !mult_IZR. apply IZR_lt in Hn, Hm. field. lra.
Qed.

Lemma sum_rotate2 : forall n m s t (g : Z -> Z -> R), 0 < n -> 0 < m -> 0 <= s -> 0 <= t ->
  sum_below n (fun a => sum_below m (g a)) =
  sum_below n (fun a => sum_below m (fun b => g ((a + s) mod n) ((b + t) mod m))).
Proof.
  intros n m s t g Hn Hm Hs Ht. rewrite <- (sum_rotate n _ s) by assumption. apply sum_ext. intros.
  now rewrite <- (sum_rotate m _ t).
Qed.

Lemma sum2_lin : forall n m c s f g, 0 <= n -> 0 <= m ->
  sum_below n (fun a => sum_below m (fun b => c * f a b + s * g a b))%R =
  (c * sum_below n (fun a => sum_below m (f a)) + s * sum_below n (fun a => sum_below m (g a)))%R.
Proof.
  intros n m c s f g Hn Hm. rewrite <- !sum_scal, <- sum_plus by assumption. apply sum_ext. intros.
  rewrite <- !sum_scal, <- sum_plus by assumption. reflexivity.
Qed.

Lemma power2_rotated : forall n m s t u u' k l, 0 < n -> 0 < m -> 0 <= s -> 0 <= t -> rotated2 n m s t u u' ->
  power2 n m u' k l = power2 n m u k l.
Proof.
  intros n m s t u u' k l Hn Hm Hs Ht H. unfold power2. 
  rewrite (sum_rotate2 n m s t (fun a b => u' a b * cos (2 * PI * (IZR a * IZR k / IZR n + IZR b * IZR l / IZR m)))%R) by assumption.
  rewrite (sum_rotate2 n m s t (fun a b => u' a b * sin (2 * PI * (IZR a * IZR k / IZR n + IZR b * IZR l / IZR m)))%R) by assumption.
  set (C := cos (wave2 n m s t k l)). set (S := sin (wave2 n m s t k l)).
  set (f := fun a b => (u a b * cos (wave2 n m a b k l))%R). set (g := fun a b => (u a b * sin (wave2 n m a b k l))%R).
  rewrite (sum_ext n (fun a => sum_below m (fun b => u' ((a + s) mod n)%Z ((b + t) mod m)%Z * cos _))%R
    (fun a => sum_below m (fun b => C * f a b + - S * g a b))%R).
  2: { intros a Ha. apply sum_ext. intros b Hb. rewrite H by assumption.
       change (2 * PI * (IZR ((a + s) mod n) * IZR k / IZR n + IZR ((b + t) mod m) * IZR l / IZR m))%R
         with (wave2 n m ((a + s) mod n) ((b + t) mod m) k l).
       rewrite wave2_turns, cos_turns, cos_plus by assumption. unfold C, S, f, g. ring. }
  rewrite (sum_ext n (fun a => sum_below m (fun b => u' ((a + s) mod n)%Z ((b + t) mod m)%Z * sin _))%R
    (fun a => sum_below m (fun b => S * f a b + C * g a b))%R).
  2: { intros a Ha. apply sum_ext. intros b Hb. rewrite H by assumption.
       change (2 * PI * (IZR ((a + s) mod n) * IZR k / IZR n + IZR ((b + t) mod m) * IZR l / IZR m))%R
         with (wave2 n m ((a + s) mod n) ((b + t) mod m) k l).
       rewrite wave2_turns, sin_turns, sin_plus by assumption. unfold C, S, f, g. ring. }
  rewrite !sum2_lin by lia.
  change (sum_below n (fun a => sum_below m (fun b => u a b * cos (2 * PI * (IZR a * IZR k / IZR n + IZR b * IZR l / IZR m))))%R)
    with (sum_below n (fun a => sum_below m (f a))).
  change (sum_below n (fun a => sum_below m (fun b => u a b * sin (2 * PI * (IZR a * IZR k / IZR n + IZR b * IZR l / IZR m))))%R)
    with (sum_below n (fun a => sum_below m (g a))).
  pose proof (sin2_cos2 (wave2 n m s t k l)) as T. fold C S in T. unfold Rsqr in T.
  set (A := sum_below n (fun a => sum_below m (f a))). set (B := sum_below n (fun a => sum_below m (g a))).
  transitivity ((S * S + C * C) * (A ^ 2 + B ^ 2))%R; [ring|]. rewrite T. ring.
Qed.

Lemma average_Forall2 : forall {A B} (P : A -> B -> Prop) f g l l', Forall2 P l l' ->
  (forall x y, P x y -> f x = g y) -> average f l = average g l'.
Proof.
  intros A B P f g l l' F H. unfold average. f_equal.
  - f_equal. induction F; cbn; [reflexivity|]. f_equal; auto.
  - f_equal. f_equal. induction F; cbn; congruence.
Qed.

Lemma origin1 : forall n l l', 1 <= n -> l <> [] ->
  Forall2 (fun s s' => exists t, 0 <= t /\ rotated n t (fst s) (fst s')) l l' ->
  exists st st', add_samples None (samples1 n l) = Ok (Some st) /\
    add_samples None (samples1 n l') = Ok (Some st') /\
    forall k, 0 <= k < n -> mean st [k] = mean st' [k].
Proof.
  intros n l l' Hn HL F. assert (HL' : l' <> []) by (destruct F; congruence).
  destruct (structure1 n None l Hn (or_introl eq_refl) HL) as (st & E & _ & M).
  destruct (structure1 n None l' Hn (or_introl eq_refl) HL') as (st' & E' & _ & M').
  exists st, st'. split; [exact E|]. split; [exact E'|]. intros k Hk.
  destruct (M k Hk) as [A B]. destruct (M' k Hk) as [A' B'].
  destruct (Z.eq_dec (2 * k) n) as [Q|Q].
  - rewrite B, B' by assumption. reflexivity.
  - rewrite A, A' by assumption. f_equal. apply (average_Forall2 _ _ _ _ _ F).
    intros s s' (t & Ht & HR). f_equal. symmetry. apply (power_rotated n t); [lia|assumption|assumption].
Qed.

Lemma origin2 : forall n m l l', 1 <= n -> 1 <= m -> n mod 2 = m mod 2 -> l <> [] ->
  Forall2 (fun s s' => exists a b, 0 <= a /\ 0 <= b /\ rotated2 n m a b (fst s) (fst s')) l l' ->
  exists st st', add_samples None (samples2 n m l) = Ok (Some st) /\
    add_samples None (samples2 n m l') = Ok (Some st') /\
    forall i j, 0 <= i < n -> 0 <= j < m -> 2 * i < n /\ 2 * j < m \/ n < 2 * i /\ m < 2 * j ->
      mean st [i; j] = mean st' [i; j].
Proof.
  intros n m l l' Hn Hm HP HL F. assert (HL' : l' <> []) by (destruct F; congruence).
  destruct (structure2 n m None l Hn Hm HP (or_introl eq_refl) HL) as (st & E & _ & M).
  destruct (structure2 n m None l' Hn Hm HP (or_introl eq_refl) HL') as (st' & E' & _ & M').
  exists st, st'. split; [exact E|]. split; [exact E'|]. intros i j Hi Hj Q.
  rewrite (proj1 (M i j Hi Hj) Q), (proj1 (M' i j Hi Hj) Q). f_equal. apply (average_Forall2 _ _ _ _ _ F).
  intros s s' (a & b & Ha & Hb & HR). f_equal. symmetry. apply (power2_rotated n m a b); [lia|lia|assumption..].
Qed.

(** ** Parseval *)
Lemma cos_sum : forall n d, 0 < n -> ~ (n | d) -> sum_below n (fun k => cos (wave n d k)) = 0%R.
Proof.
  intros n d Hn Hd. set (x := wave n d 1).
  assert (X : forall k, wave n d k = (IZR k * x)%R).
  { intro k. unfold x, wave. unfold Rdiv. ring. }
  assert (T : forall m, 0 <= m -> (2 * sin (x / 2) * sum_below m (fun k => cos (wave n d k)))%R = (sin (IZR m * x - x / 2) + sin (x / 2))%R).
  { apply natlike_ind.
    - rewrite sum_0, Rmult_0_l, Rminus_0_l, sin_neg. ring.
    - intros m Hm IH. unfold Z.succ. rewrite sum_succ, Rmult_plus_distr_l, IH, X by assumption. rewrite plus_IZR.
      replace ((IZR m + 1) * x - x / 2)%R with (IZR m * x + x / 2)%R by field.
      rewrite sin_plus, sin_minus. ring. }
  assert (S : sin (x / 2) <> 0%R).
  { intro E. apply sin_eq_0_0 in E. destruct E as [z Ez]. apply Hd. exists z.
    unfold x, wave in Ez. apply IZR_lt in Hn as Hn'. apply eq_IZR. rewrite mult_IZR. pose proof PI_RGT_0.
    assert (E2 : (IZR d / IZR n * PI = IZR z * PI)%R) by (rewrite <- Ez; field; lra).
    apply Rmult_eq_reg_r in E2; [|lra]. rewrite <- E2. field. lra. }
  specialize (T n ltac:(lia)).
  assert (N : (IZR n * x)%R = (2 * PI * IZR d)%R).
  { unfold x, wave. apply IZR_lt in Hn. field. lra. }
  rewrite N in T. replace (2 * PI * IZR d - x / 2)%R with (- (x / 2) + 2 * PI * IZR d)%R in T by ring.
  rewrite sin_turns, sin_neg in T.
  assert (Z0 : (2 * sin (x / 2) * sum_below n (fun k => cos (wave n d k)) = 0)%R) by (rewrite T; ring).
  apply Rmult_integral in Z0. destruct Z0 as [Z0|Z0]; [|assumption]. lra.
Qed.

Lemma parseval : forall n u, 0 < n ->
  sum_below n (fun k => power n u k / IZR n)%R = sum_below n (fun j => u j * u j)%R.
Proof.
  intros n u Hn. apply IZR_lt in Hn as Hn'.
  transitivity (sum_below n (fun k => / IZR n * sum_below n (fun j => sum_below n (fun l => u j * u l * cos (wave n (j - l) k)))))%R.
  - apply sum_ext. intros k _. unfold Rdiv. rewrite Rmult_comm. f_equal. unfold power.
    change (fun j => u j * cos (2 * PI * (IZR j * IZR k / IZR n)))%R with (fun j => u j * cos (wave n j k))%R.
    change (fun j => u j * sin (2 * PI * (IZR j * IZR k / IZR n)))%R with (fun j => u j * sin (wave n j k))%R.
    set (A := sum_below n (fun j => u j * cos (wave n j k))%R). set (B := sum_below n (fun j => u j * sin (wave n j k))%R).
    rewrite (sum_ext n _ (fun j => A * (u j * cos (wave n j k)) + B * (u j * sin (wave n j k)))%R).
    + rewrite sum_plus, !sum_scal by lia. fold A B. ring.
    + intros j _. unfold A, B.
      rewrite (sum_ext n _ (fun l => u j * cos (wave n j k) * (u l * cos (wave n l k)) + u j * sin (wave n j k) * (u l * sin (wave n l k)))%R).
      * rewrite sum_plus, !sum_scal by lia. ring.
      * intros l _. replace (wave n (j - l) k) with (wave n j k - wave n l k)%R; [rewrite cos_minus; ring|].
        unfold wave. rewrite minus_IZR. field. lra.
  - rewrite sum_scal, sum_swap by lia.
    rewrite (sum_ext n _ (fun j => IZR n * (u j * u j))%R).
    + rewrite sum_scal by lia. field. lra.
    + intros j Hj. rewrite sum_swap by lia.
      rewrite (sum_ext n _ (fun l => if l =? j then IZR n * (u j * u l) else 0)%R).
      * now rewrite (sum_pick n j (fun l => IZR n * (u j * u l))%R).
      * intros l Hl. rewrite sum_scal by lia. destruct (l =? j) eqn:E.
        -- apply Z.eqb_eq in E. subst l. rewrite Z.sub_diag.
           rewrite (sum_ext n _ (fun _ => 1)%R).
           2: { intros k _. unfold wave, Rdiv. rewrite !Rmult_0_l, Rmult_0_r. apply cos_0. }
           assert (P : forall m, 0 <= m -> sum_below m (fun _ => 1)%R = IZR m).
           { apply natlike_ind; [reflexivity|]. intros m Hm IH. unfold Z.succ. rewrite sum_succ, IH, plus_IZR by assumption. ring. }
           rewrite P by lia. ring.
        -- rewrite cos_sum; [ring|assumption|]. intros [z Hz]. apply Z.eqb_neq in E. assert (z = 0) by nia. subst. lia.
Qed.

Lemma parseval_mean : forall n start l, 1 <= n -> n mod 2 = 1 -> fresh [n] start -> l <> [] ->
  exists st, add_samples start (samples1 n l) = Ok (Some st) /\
    exists s, (forall k, 0 <= k < n -> mean st [k] = Some (s k)) /\
      sum_below n s = average (fun x => sum_below n (fun j => fst x j * fst x j)%R) l.
Proof.
  intros n start l Hn Ho HF HL. destruct (structure1 n start l Hn HF HL) as (st & E & SH & M).
  exists st. split; [exact E|]. exists (fun k => average (fun s => power n (fst s) k / IZR n)%R l). split.
  - intros k Hk. apply M; [assumption|]. unfold nyquist. intro Q. subst n.
    rewrite Z.mul_comm, Z_mod_mult in Ho. discriminate.
  - unfold average, Rdiv. rewrite (sum_ext n _ (fun k => / INR (length l) * fold_right Rplus 0 (map (fun s => power n (fst s) k / IZR n) l))%R) by (intros; unfold Rdiv; ring).
    rewrite sum_scal by lia. rewrite Rmult_comm. f_equal.
    clear -Hn. induction l as [|x t IH]; cbn [map fold_right].
    + rewrite (sum_ext n _ (fun _ => 0 * 0)%R) by (intros; ring). rewrite sum_scal by lia. ring.
    + rewrite sum_plus, IH, parseval by lia. reflexivity.
Qed.

(** ** Frequencies *)
Lemma fftfreq_eq : forall n k, 0 <= k < n ->
  fftfreq n k = ((if 2 * k <? n then IZR k else IZR k - IZR n) / IZR n)%R.
Proof.
  intros n k H. unfold fftfreq. f_equal. destruct (2 * k <? n) eqn:E.
  - replace (k <? (n - 1) / 2 + 1) with true by (Z.to_euclidean_division_equations; lia). reflexivity.
  - replace (k <? (n - 1) / 2 + 1) with false by (Z.to_euclidean_division_equations; lia).
    rewrite <- minus_IZR. f_equal. Z.to_euclidean_division_equations; lia.
Qed.

Lemma fftfreq_opp : forall n k, 0 <= k < n -> ~ nyquist n k -> fftfreq n (opposite n k) = (- fftfreq n k)%R.
Proof.
  intros n k H Q. unfold nyquist in Q. assert (N : (0 < IZR n)%R) by (apply IZR_lt; lia).
  unfold opposite. destruct (Z.eq_dec k 0) as [->|].
  - change (- 0) with 0. rewrite Z.mod_0_l by lia. rewrite fftfreq_eq by lia. replace (2 * 0 <? n) with true by lia. field. lra.
  - rewrite <- (Z_mod_plus_full _ 1), Z.mod_small by lia. rewrite !fftfreq_eq by lia.
    destruct (2 * k <? n) eqn:E.
    + replace (2 * (- k + 1 * n) <? n) with false by lia. rewrite plus_IZR, opp_IZR, mult_IZR. field. lra.
    + replace (2 * (- k + 1 * n) <? n) with true by lia. rewrite plus_IZR, opp_IZR, mult_IZR. field. lra.
Qed.

Lemma q_1 : forall st n axis, st_shape st = [n] -> exists f, q_of st axis = Ok f /\ forall k, 0 <= k < n ->
  (2 * k < n -> f [k] = (IZR k / IZR n)%R) /\ (n <= 2 * k -> f [k] = ((IZR k - IZR n) / IZR n)%R).
Proof.
  intros st n axis H. unfold q_of. rewrite H. eexists. split; [reflexivity|]. intros k Hk. cbn [nth].
  rewrite fftfreq_eq by lia. split; intro Q.
  - now replace (2 * k <? n) with true by lia.
  - now replace (2 * k <? n) with false by lia.
Qed.

Lemma q_opposite : forall st n axis, st_shape st = [n] -> exists f, q_of st axis = Ok f /\ forall k, 0 <= k < n ->
  ~ nyquist n k -> f [opposite n k] = (- f [k])%R.
Proof.
  intros st n axis H. unfold q_of. rewrite H. eexists. split; [reflexivity|]. intros k Hk Q. cbn [nth].
  now apply fftfreq_opp.
Qed.

Lemma q_2 : forall st n m, st_shape st = [n; m] ->
  exists f g, q_of st (Some 0) = Ok f /\ q_of st (Some 1) = Ok g /\ forall i j, 0 <= i < n -> 0 <= j < m ->
    (2 * i < n -> f [i; j] = (IZR i / IZR n)%R) /\ (n <= 2 * i -> f [i; j] = ((IZR i - IZR n) / IZR n)%R) /\
    (2 * j < m -> g [i; j] = (IZR j / IZR m)%R) /\ (m <= 2 * j -> g [i; j] = ((IZR j - IZR m) / IZR m)%R).
Proof.
  intros st n m H. unfold q_of. rewrite H. eexists _, _. split; [reflexivity|]. split; [reflexivity|].
  intros i j Hi Hj. cbn [nth]. rewrite !fftfreq_eq by lia.
  destruct (2 * i <? n) eqn:E1, (2 * j <? m) eqn:E2; repeat split; intro Q; (reflexivity || lia).
Qed.

Lemma qnorm_1 : forall st n, st_shape st = [n] -> 1 <= n ->
  exists e f, qnorm st = Ok ([e], f) /\ (forall k, 0 <= k -> (k < e <-> 2 * k < n)) /\
    forall k, 0 <= k < e -> f [k] = (IZR k / IZR n)%R.
Proof.
  intros st n H Hn. unfold qnorm. rewrite H. eexists _, _. split; [reflexivity|].
  destruct (start_stop n Hn) as (A & B & C & D). split.
  - intros k Hk. specialize (D k). lia.
  - intros k Hk. specialize (D k). cbn [nth]. rewrite fftfreq_eq by lia. replace (2 * k <? n) with true by lia.
    apply Rabs_right. apply Rle_ge. unfold Rdiv. apply Rmult_le_pos; [apply IZR_le; lia|].
    apply Rlt_le, Rinv_0_lt_compat, IZR_lt. lia.
Qed.

Lemma qnorm_2 : forall st n m, st_shape st = [n; m] -> 1 <= n -> 1 <= m ->
  exists e e' f, qnorm st = Ok ([e; e'], f) /\
    (forall k, 0 <= k -> (k < e <-> 2 * k < n)) /\ (forall k, 0 <= k -> (k < e' <-> 2 * k < m)) /\
    forall i j, 0 <= i < e -> 0 <= j < e' -> f [i; j] = sqrt ((IZR i / IZR n) ^ 2 + (IZR j / IZR m) ^ 2)%R.
Proof.
  intros st n m H Hn Hm. unfold qnorm. rewrite H. eexists _, _, _. split; [reflexivity|].
  destruct (start_stop n Hn) as (A & B & C & D). destruct (start_stop m Hm) as (A' & B' & C' & D'). split; [|split].
  - intros k Hk. specialize (D k). lia.
  - intros k Hk. specialize (D' k). lia.
  - intros i j Hi Hj. specialize (D i). specialize (D' j). cbn [nth]. rewrite !fftfreq_eq by lia.
    replace (2 * i <? n) with true by lia. replace (2 * j <? m) with true by lia. reflexivity.
Qed.

(** ** Examples *)
Lemma case1 : exists st, add_samples None (samples1 4 [((fun j => IZR j), fun _ _ => 7%R)]) = Ok (Some st) /\
  mean st [0] = Some 9%R /\ mean st [2] = None.
Proof.
  destruct (structure1 4 None [((fun j => IZR j), fun _ _ => 7%R)]) as (st & E & _ & M); [lia|now left|discriminate|].
  exists st. split; [exact E|]. split.
  - rewrite (proj1 (M 0 ltac:(lia))) by (unfold nyquist; lia). f_equal. rewrite average_one. cbn [fst].
    unfold power. rewrite (sum_ext 4 (fun j => IZR j * sin _)%R (fun j => 0 * IZR j)%R), (sum_ext 4 (fun j => IZR j * cos _)%R (fun j => IZR j)).
    + rewrite sum_scal by lia. unfold sum_below. change (zrange 0 4) with [0; 1; 2; 3]. cbn [map fold_right]. field.
    + intros j _. replace (2 * PI * (IZR j * 0 / 4))%R with 0%R by field. rewrite cos_0. ring.
    + intros j _. replace (2 * PI * (IZR j * 0 / 4))%R with 0%R by field. rewrite sin_0. ring.
  - apply M; [lia|]. unfold nyquist. lia.
Qed.

Lemma case2 : exists st, add_samples None (samples2 3 5 [(delta 1 2, fun _ _ => 7%R)]) = Ok (Some st) /\
  mean st [1; 2] = Some (/ 15)%R.
Proof.
  destruct (structure2 3 5 None [(delta 1 2, fun _ _ => 7%R)]) as (st & E & _ & M); [lia|lia|reflexivity|now left|discriminate|].
  exists st. split; [exact E|]. rewrite (proj1 (M 1 2 ltac:(lia) ltac:(lia))) by lia.
  rewrite average_one. cbn [fst]. rewrite power2_delta by lia. f_equal. change (3 * 5) with 15. field.
Qed.

Lemma case_rotated : rotated 5 2 (fun j => IZR (j * j)) (fun j => IZR ((j - 2) mod 5 * ((j - 2) mod 5))) /\
  rotated2 3 4 1 2 (delta 0 0) (delta 1 2).
Proof.
  split.
  - intros j Hj. replace (((j + 2) mod 5 - 2) mod 5) with j by (Z.to_euclidean_division_equations; lia). reflexivity.
  - intros a b Ha Hb. unfold delta.
    replace (((a + 1) mod 3 =? 1) && ((b + 2) mod 4 =? 2)) with ((a =? 0) && (b =? 0)); [reflexivity|].
    Z.to_euclidean_division_equations; lia.
Qed.
