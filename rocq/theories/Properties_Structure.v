(** * Properties_Structure: C52, C53, C60, C61, C81, C93

    [power n u k]: the squared modulus of the Fourier component with [k] waves, [nyquist n k]:
    2 k = n, [opposite n k]: the index of the frequency -k, [average f l]: the mean of [f] over
    the samples.  A sample is a pair of its data and the uninitialised memory the result is
    computed in; [fresh]: no sample was added yet. *)

From Coq Require Import ZArith List Bool Reals Lra Lia Permutation.
From Verif Require Import Base Structure SpecStructure StructureProofs StructureProofs2 StructureTop StructureOrder StructureInt SpecStructureAll StructureAll.
Import ListNotations.
Open Scope Z_scope.

(** ** C52 *)
Theorem C52_structure_factor_1d : forall n start l, 1 <= n -> fresh [n] start -> l <> [] ->
  exists st, add_samples start (samples1 n l) = Ok (Some st) /\ st_shape st = [n] /\
    forall k, 0 <= k < n ->
      (~ nyquist n k -> mean st [k] = Some (average (fun s => power n (fst s) k / IZR n)%R l)) /\
      (nyquist n k -> mean st [k] = None).
Proof. exact structure1. Qed.
Print Assumptions C52_structure_factor_1d.

Theorem C52_power_is_product_with_opposite : forall n u k, 0 <= k < n ->
  cmul (fft n u k) (fft n u (opposite n k)) = (power n u k, 0%R).
Proof. exact power_product. Qed.
Print Assumptions C52_power_is_product_with_opposite.

(** The entries of one sample: all but the Nyquist entry are written (in an array of the dtype of
    the sample, [cast]). *)
Theorem C52_only_nyquist_unwritten : forall dt n u junk, 1 <= n ->
  exists r, sample1 dt n u junk = Ok r /\ forall k, 0 <= k < n ->
    (~ nyquist n k -> vat r k = cast dt (power n u k) / IZR n)%R /\ (nyquist n k -> vat r k = junk k / IZR n)%R.
Proof. exact sample1_ok. Qed.
Print Assumptions C52_only_nyquist_unwritten.

Example C52_case : exists st, add_samples None (samples1 4 [((fun j => IZR j), fun _ _ => 7%R)]) = Ok (Some st) /\
  mean st [0] = Some 9%R /\ mean st [2] = None.
Proof. exact case1. Qed.

(** ** C53 *)
Theorem C53_structure_factor_2d_partial : forall n m start l, 1 <= n -> 1 <= m -> n mod 2 = m mod 2 ->
  fresh [n; m] start -> l <> [] ->
  exists st, add_samples start (samples2 n m l) = Ok (Some st) /\ st_shape st = [n; m] /\
    forall i j, 0 <= i < n -> 0 <= j < m ->
      (2 * i < n /\ 2 * j < m \/ n < 2 * i /\ m < 2 * j ->
         mean st [i; j] = Some (average (fun s => power2 n m (fst s) i j / IZR (n * m))%R l)) /\
      (nyquist n i \/ nyquist m j -> mean st [i; j] = None).
Proof. exact structure2. Qed.
Print Assumptions C53_structure_factor_2d_partial.

Theorem C53_power_is_product_with_opposite : forall n m u k l, 0 <= k < n -> 0 <= l < m ->
  cmul (fft2 n m u k l) (fft2 n m u (opposite n k) (opposite m l)) = (power2 n m u k l, 0%R).
Proof. exact power2_product. Qed.
Print Assumptions C53_power_is_product_with_opposite.

Theorem C53_mixed_parity_throws : forall n m u junk, 1 <= n -> 1 <= m -> n mod 2 <> m mod 2 ->
  add_sample None (Data2 n m u) junk = Throw.
Proof. exact parity_throws. Qed.
Print Assumptions C53_mixed_parity_throws.

(** Some entries are never written: the result depends on uninitialised memory. *)
Theorem C53_depends_on_memory_refuted : exists n m u junk junk' i j st st', 0 <= i < n /\ 0 <= j < m /\
  ~ nyquist n i /\ ~ nyquist m j /\
  add_sample None (Data2 n m u) junk = Ok st /\ add_sample None (Data2 n m u) junk' = Ok st' /\
  mean st [i; j] <> mean st' [i; j].
Proof. exact memory_refuted. Qed.
Print Assumptions C53_depends_on_memory_refuted.

(** Entries of one positive and one negative frequency are wrong, even negative. *)
Theorem C53_mixed_frequencies_refuted : exists n m u i j, 0 <= i < n /\ 0 <= j < m /\
  ~ nyquist n i /\ ~ nyquist m j /\ (forall k l, power2 n m u k l = 1%R) /\
  forall junk, exists st, add_sample None (Data2 n m u) junk = Ok st /\ mean st [i; j] = Some (- / 16)%R.
Proof. exact mixed_refuted. Qed.
Print Assumptions C53_mixed_frequencies_refuted.

(** What is in every entry ([snd s]: the uninitialised memory of the sample). *)
Theorem C53_every_entry : forall n m start l, 1 <= n -> 1 <= m -> n mod 2 = m mod 2 -> fresh [n; m] start -> l <> [] ->
  exists st, add_samples start (samples2 n m l) = Ok (Some st) /\ st_shape st = [n; m] /\
    forall i j, 0 <= i < n -> 0 <= j < m ->
      let entry f := mean st [i; j] = Some (average (fun s => f s / IZR (n * m))%R l) in
      (nyquist n i \/ nyquist m j -> mean st [i; j] = None) /\
      (2 * i < n /\ 2 * j < m \/ n < 2 * i /\ m < 2 * j -> entry (fun s => power2 n m (fst s) i j)) /\
      (i = 0 /\ m < 2 * j \/ j = 0 /\ n < 2 * i -> entry (fun s => snd s i j)) /\
      (0 < i /\ 2 * i < n /\ m < 2 * j -> entry (fun s => product2 n m (fst s) i (j - m / 2) i (m - (j - m / 2)))) /\
      (n < 2 * i /\ 0 < j /\ 2 * j < m -> entry (fun s => product2 n m (fst s) (i - n / 2) j (n - (i - n / 2)) j)).
Proof. exact every_entry. Qed.
Print Assumptions C53_every_entry.

Example C53_case : exists st, add_samples None (samples2 3 5 [(delta 1 2, fun _ _ => 7%R)]) = Ok (Some st) /\
  mean st [1; 2] = Some (/ 15)%R.
Proof. exact case2. Qed.

Example C53_case_throw : add_sample None (Data2 3 4 (delta 0 0)) (fun _ _ => 0%R) = Throw.
Proof. apply parity_throws; (lia || discriminate). Qed.

(** ** C60 *)
Theorem C60_origin_is_irrelevant_1d : forall n l l', 1 <= n -> l <> [] ->
  Forall2 (fun s s' => exists t, 0 <= t /\ rotated n t (fst s) (fst s')) l l' ->
  exists st st', add_samples None (samples1 n l) = Ok (Some st) /\
    add_samples None (samples1 n l') = Ok (Some st') /\
    forall k, 0 <= k < n -> mean st [k] = mean st' [k].
Proof. exact origin1. Qed.
Print Assumptions C60_origin_is_irrelevant_1d.

Theorem C60_origin_is_irrelevant_2d_partial : forall n m l l', 1 <= n -> 1 <= m -> n mod 2 = m mod 2 -> l <> [] ->
  Forall2 (fun s s' => exists a b, 0 <= a /\ 0 <= b /\ rotated2 n m a b (fst s) (fst s')) l l' ->
  exists st st', add_samples None (samples2 n m l) = Ok (Some st) /\
    add_samples None (samples2 n m l') = Ok (Some st') /\
    forall i j, 0 <= i < n -> 0 <= j < m -> 2 * i < n /\ 2 * j < m \/ n < 2 * i /\ m < 2 * j ->
      mean st [i; j] = mean st' [i; j].
Proof. exact origin2. Qed.
Print Assumptions C60_origin_is_irrelevant_2d_partial.

(** Entries of one positive and one negative frequency do depend on the origin. *)
Theorem C60_origin_is_irrelevant_2d_refuted : exists n m u u' s t i j, 0 <= s /\ 0 <= t /\ rotated2 n m s t u u' /\
  0 <= i < n /\ 0 <= j < m /\ ~ nyquist n i /\ ~ nyquist m j /\
  forall junk, exists st st', add_sample None (Data2 n m u) junk = Ok st /\ add_sample None (Data2 n m u') junk = Ok st' /\
    mean st [i; j] = Some (/ 16)%R /\ mean st' [i; j] = Some (- / 16)%R.
Proof. exact origin2_refuted. Qed.
Print Assumptions C60_origin_is_irrelevant_2d_refuted.

(** Parseval: the frequencies share out the mean sum of squares. *)
Theorem C60_sum_rule : forall n start l, 1 <= n -> n mod 2 = 1 -> fresh [n] start -> l <> [] ->
  exists st, add_samples start (samples1 n l) = Ok (Some st) /\
    exists s, (forall k, 0 <= k < n -> mean st [k] = Some (s k)) /\
      sum_below n s = average (fun x => sum_below n (fun j => fst x j * fst x j)%R) l.
Proof. exact parseval_mean. Qed.
Print Assumptions C60_sum_rule.

Example C60_case : rotated 5 2 (fun j => IZR (j * j)) (fun j => IZR ((j - 2) mod 5 * ((j - 2) mod 5))) /\
  rotated2 3 4 1 2 (delta 0 0) (delta 1 2).
Proof. exact case_rotated. Qed.

(** ** C61 *)
Theorem C61_frequencies_1d : forall st n axis, st_shape st = [n] -> exists f, q_of st axis = Ok f /\
  forall k, 0 <= k < n ->
  (2 * k < n -> f [k] = (IZR k / IZR n)%R) /\ (n <= 2 * k -> f [k] = ((IZR k - IZR n) / IZR n)%R).
Proof. exact q_1. Qed.
Print Assumptions C61_frequencies_1d.

Theorem C61_opposite_frequencies : forall st n axis, st_shape st = [n] -> exists f, q_of st axis = Ok f /\
  forall k, 0 <= k < n -> ~ nyquist n k -> f [opposite n k] = (- f [k])%R.
Proof. exact q_opposite. Qed.
Print Assumptions C61_opposite_frequencies.

Theorem C61_frequencies_2d : forall st n m, st_shape st = [n; m] ->
  exists f g, q_of st (Some 0) = Ok f /\ q_of st (Some 1) = Ok g /\ forall i j, 0 <= i < n -> 0 <= j < m ->
    (2 * i < n -> f [i; j] = (IZR i / IZR n)%R) /\ (n <= 2 * i -> f [i; j] = ((IZR i - IZR n) / IZR n)%R) /\
    (2 * j < m -> g [i; j] = (IZR j / IZR m)%R) /\ (m <= 2 * j -> g [i; j] = ((IZR j - IZR m) / IZR m)%R).
Proof. exact q_2. Qed.
Print Assumptions C61_frequencies_2d.

(** [qnorm] lists exactly the non-negative frequencies below n/2, in the order of [mean()]. *)
Theorem C61_qnorm_1d : forall st n, st_shape st = [n] -> 1 <= n ->
  exists e f, qnorm st = Ok ([e], f) /\ (forall k, 0 <= k -> (k < e <-> 2 * k < n)) /\
    forall k, 0 <= k < e -> f [k] = (IZR k / IZR n)%R.
Proof. exact qnorm_1. Qed.
Print Assumptions C61_qnorm_1d.

Theorem C61_qnorm_2d : forall st n m, st_shape st = [n; m] -> 1 <= n -> 1 <= m ->
  exists e e' f, qnorm st = Ok ([e; e'], f) /\
    (forall k, 0 <= k -> (k < e <-> 2 * k < n)) /\ (forall k, 0 <= k -> (k < e' <-> 2 * k < m)) /\
    forall i j, 0 <= i < e -> 0 <= j < e' -> f [i; j] = sqrt ((IZR i / IZR n) ^ 2 + (IZR j / IZR m) ^ 2)%R.
Proof. exact qnorm_2. Qed.
Print Assumptions C61_qnorm_2d.

Example C61_case : exists st, allocate [6; 4] = Ok st /\ st_shape st = [6; 4].
Proof. eexists. split; reflexivity. Qed.

(** ** C81 Samples of one usable shape are accepted, in any order *)

(** In any state that can be reached: a sample is accepted, and counted, if its shape is usable
    and that of the samples before it; if not an exception is raised. *)
Theorem C81_accepted_samples : forall shape start l st d junk, fresh shape start -> add_samples start l = Ok st ->
  let fits := usable (shape_of d) /\ (forall s, st = Some s -> st_shape s = shape_of d) in
  (fits -> exists st', add_sample st d junk = Ok st' /\ st_shape st' = shape_of d /\
             st_norm st' = 1 + match st with Some s => st_norm s | None => 0 end) /\
  (~ fits -> add_sample st d junk = Throw).
Proof. exact accepted. Qed.
Print Assumptions C81_accepted_samples.

Theorem C81_order_is_irrelevant : forall start l l' st, Permutation l l' -> add_samples start l = Ok (Some st) ->
  exists st', add_samples start l' = Ok (Some st') /\ st_shape st' = st_shape st /\ st_norm st' = st_norm st /\
    forall i, mean st' i = mean st i.
Proof. exact any_order_mean. Qed.
Print Assumptions C81_order_is_irrelevant.

Example C81_case : usable [3; 5] /\ ~ usable [3; 4] /\ ~ usable [0] /\
  (forall junk, exists st, add_sample None (Data1 3 (fun j => IZR j)) junk = Ok st /\
     (forall u, exists st', add_sample (Some st) (Data1 3 u) junk = Ok st') /\ forall u, add_sample (Some st) (Data1 4 u) junk = Throw).
Proof.
  split; [split; [repeat constructor; lia|]; intros a b [<-|[<-|[]]] [<-|[<-|[]]]; reflexivity|].
  split; [intros [_ H]; specialize (H 3 4 (or_introl eq_refl) (or_intror (or_introl eq_refl))); discriminate|].
  split; [intros [H _]; inversion H; lia|]. intros junk.
  assert (U : usable [3]) by (split; [repeat constructor; lia|]; intros a b [<-|[]] [<-|[]]; reflexivity).
  destruct (proj1 (accepted [3] None [] None (Data1 3 (fun j => IZR j)) junk (or_introl eq_refl) eq_refl)) as (st & E & S & _); [split; [exact U|discriminate]|].
  assert (A : add_samples None [(Data1 3 (fun j => IZR j), junk)] = Ok (Some st)) by (unfold add_samples; cbn [foldM fst snd]; rewrite E; reflexivity).
  exists st. split; [exact E|]. split; intros u.
  - destruct (proj1 (accepted [3] None _ _ (Data1 3 u) junk (or_introl eq_refl) A)) as (st' & E' & _); [|eauto].
    split; [exact U|]. intros s HS. inversion HS; subst. exact S.
  - apply (proj2 (accepted [3] None _ _ (Data1 4 u) junk (or_introl eq_refl) A)). intros [_ H]. specialize (H st eq_refl). cbn [shape_of] in *. congruence.
Qed.

(** ** C93 Samples that are arrays of integers

    [int_samples1 n l] adds arrays of integers, [samples1 n (as_float1 l)] the same values as
    floating point numbers. *)

(** The result is too small, by less than 1 / n. *)
Theorem C93_integers_1d_partial : forall n start l, 1 <= n -> fresh [n] start -> l <> [] ->
  exists st st', add_samples start (samples1 n (as_float1 l)) = Ok (Some st) /\
    add_samples start (int_samples1 n l) = Ok (Some st') /\
    forall k, 0 <= k < n -> ~ nyquist n k -> exists x y, mean st [k] = Some x /\ mean st' [k] = Some y /\ (x - / IZR n < y <= x)%R.
Proof. exact integers_close. Qed.
Print Assumptions C93_integers_1d_partial.

Theorem C93_integers_2d_partial : forall n m start l, 1 <= n -> 1 <= m -> n mod 2 = m mod 2 -> fresh [n; m] start -> l <> [] ->
  exists st st', add_samples start (samples2 n m (as_float2 l)) = Ok (Some st) /\
    add_samples start (int_samples2 n m l) = Ok (Some st') /\
    forall i j, 0 <= i < n -> 0 <= j < m -> 2 * i < n /\ 2 * j < m \/ n < 2 * i /\ m < 2 * j ->
      exists x y, mean st [i; j] = Some x /\ mean st' [i; j] = Some y /\ (x - / IZR (n * m) < y <= x)%R.
Proof. exact integers2. Qed.
Print Assumptions C93_integers_2d_partial.

(** The entry of zero frequency is exact. *)
Theorem C93_zero_frequency_is_exact : forall n start l, 1 <= n -> fresh [n] start -> l <> [] ->
  exists st st', add_samples start (samples1 n (as_float1 l)) = Ok (Some st) /\
    add_samples start (int_samples1 n l) = Ok (Some st') /\ mean st' [0] = mean st [0].
Proof. exact integers_zero. Qed.
Print Assumptions C93_zero_frequency_is_exact.

(** All the power of a binary sample at some frequency can be lost. *)
Theorem C93_integers_refuted : exists n u k, 0 <= k < n /\ ~ nyquist n k /\ (forall j, u j = 0 \/ u j = 1) /\
  forall junk, exists st st', add_sample None (IntData1 n u) junk = Ok st /\ add_sample None (Data1 n (fun j => IZR (u j))) junk = Ok st' /\
    mean st [k] = Some 0%R /\ exists x, mean st' [k] = Some x /\ (/ 16 < x)%R.
Proof. exact lost. Qed.
Print Assumptions C93_integers_refuted.

Example C93_case : fresh [8] None /\ fresh [3; 5] None /\
  exists st, add_samples None (int_samples1 8 [((fun j => if j <? 2 then 1 else 0), fun _ _ => 7%R)]) = Ok (Some st) /\ st_shape st = [8].
Proof.
  split; [now left|]. split; [now left|].
  destruct (structure1_all 8 None (int_samples1 8 [((fun j => if j <? 2 then 1 else 0), fun _ _ => 7%R)])) as (st & E & S & _);
    [lia|now left|discriminate|constructor; [reflexivity|constructor]|eauto].
Qed.
