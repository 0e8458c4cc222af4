(** * StructureFloatTop: structure factors of histories of samples, with rounding *)

From Coq Require Import ZArith Reals List Bool Lia Lra Psatz.
From Flocq Require Import Core Relative BinarySingleNaN.
From Verif Require Import Base BaseLemmas Double SpecDouble DoubleProofs DoubleError CenterFloatSums.
From Verif Require Import Structure SpecStructure SpecStructureAll SpecError StructureProofs StructureProofs2 StructureTop StructureFloat SpecStructureFloat StructureFloatProofs.
Import ListNotations.
Open Scope Z_scope.

Local Notation eps := (bpow radix2 (-52)).

(** ** The entries of one sample *)

(** The index among the first half that is written for [k]. *)
Definition low (n k : Z) : Z := if 2 * k <? n then k else n - k.

Lemma opposite_0 : forall n, 0 < n -> opposite n 0 = 0.
Proof. intros n H. unfold opposite. apply Z.mod_0_l. lia. Qed.
Lemma opposite_pos : forall n k, 0 < k < n -> opposite n k = n - k.
Proof. intros n k H. unfold opposite. symmetry. apply Z.mod_unique with (q := -1); lia. Qed.

Lemma fsample1_ok : forall P dt n hat junk, 1 <= n ->
  exists r, fsample1 P dt n hat junk = Ok r /\ forall k, 0 <= k < n ->
    ~ nyquist n k -> vat r k = ddiv (fcast dt (P (hat (low n k)) (hat (opposite n (low n k))))) (dz n).
Proof.
  intros P dt n hat junk H. destruct (start_stop n H) as (A & B & C & D). unfold fsample1, nyquist.
  set (e := stop_of n) in *. set (s := start_of n) in *. clearbody e s.
  if_false. unfold vput, fvmul, vslice, vflip, vassign. cbn [vlen vat].
  if_true. cbn [bind vlen vat].
  rewrite !(Z.min_l 1 n), !(Z.min_l e n), !(Z.min_l s n), !(Z.min_l n n) by lia.
  if_true. cbn [bind vlen vat]. if_true. cbn [bind vlen vat].
  rewrite !(Z.min_l 1 n), !(Z.min_l e n), !(Z.min_l s n), !(Z.min_l n n) by lia. if_true. cbn [bind vlen vat].
  eexists. split; [reflexivity|]. cbn [vat]. intros k Hk Q. specialize (D k). unfold low.
  f_equal. destruct (Z_lt_ge_dec (2 * k) n).
  - replace ((s <=? k) && (k <? n)) with false by lia. replace (2 * k <? n) with true by lia. destruct (Z.eq_dec k 0) as [->|].
    + replace ((1 <=? 0) && (0 <? e)) with false by lia. cbn [Z.eqb]. rewrite opposite_0 by lia. reflexivity.
    + replace ((1 <=? k) && (k <? e)) with true by lia. rewrite opposite_pos by lia. do 3 f_equal; lia.
  - replace ((s <=? k) && (k <? n)) with true by lia. replace (2 * k <? n) with false by lia.
    replace (1 + (Z.max 0 (e - 1) - 1 - (k - s))) with (n - k) by lia.
    replace ((1 <=? n - k) && (n - k <? e)) with true by (destruct D; lia).
    rewrite opposite_pos by lia. do 3 f_equal; lia.
Qed.

(** Both frequencies positive, or both negative. *)
Definition same_half (n m i j : Z) : Prop := 2 * i < n /\ 2 * j < m \/ n < 2 * i /\ m < 2 * j.

Lemma fsample2_ok : forall P dt n m hat junk, 1 <= n -> 1 <= m ->
  exists r, fsample2 P dt n m hat junk = Ok r /\ forall i j, 0 <= i < n -> 0 <= j < m -> same_half n m i j ->
    mat_at r i j = ddiv (fcast dt (P (hat (low n i) (low m j)) (hat (opposite n (low n i)) (opposite m (low m j))))) (dz (n * m)).
Proof.
  intros P dt n m hat junk Hn Hm.
  destruct (start_stop n Hn) as (A & B & C & D). destruct (start_stop m Hm) as (A' & B' & C' & D').
  unfold fsample2, same_half.
  set (er := stop_of n) in *. set (sr := start_of n) in *. set (ec := stop_of m) in *. set (sc := start_of m) in *.
  clearbody er sr ec sc. if_false.
  unfold massign_row, massign_col, massign, fvmul, vslice, vflip, fmmul, mslice, mflip, mflip0, mflip1, mrow, mcol.
  cbn [vlen vat mrows mcols mat_at].
  do 20 (go n m er sr ec sc).
  eexists. split; [reflexivity|]. cbn [mat_at]. intros i j Hi Hj HH. f_equal. specialize (D i). specialize (D' j). unfold low.
  assert (Z.max 0 (er - 1) = er - 1) as -> by lia. assert (Z.max 0 (ec - 1) = ec - 1) as -> by lia.
  assert (Z.max 0 (n - sr) = n - sr) as -> by lia. assert (Z.max 0 (m - sc) = m - sc) as -> by lia.
  assert (RR : i = 0 /\ j = 0 \/ i = 0 /\ 1 <= j < ec \/ 1 <= i < er /\ j = 0 \/ 1 <= i < er /\ 1 <= j < ec \/ sr <= i /\ sc <= j) by lia.
  destruct RR as [[-> ->]|[[-> R]|[[R ->]|[[R R']|[R R']]]]]; decide_ifs; rewrite ?opposite_0 by lia; rewrite ?opposite_pos by lia; try reflexivity;
    f_equal; f_equal; f_equal; lia.
Qed.

(** ** Histories *)
Section History.
  Variable P : fcomplex -> fcomplex -> double.
  Variable shape : list Z.
  Variable I : list Z -> Prop.
  Variable V : fdata -> list Z -> double.

  Definition fcontributes (x : fdata) : Prop :=
    exists f, (forall st, fadd_sample P st x = faccumulate st shape f) /\ (forall i, I i -> f i = V x i).

  Lemma fhistory_from : forall l st, (forall x, In x l -> fcontributes x) -> fst_shape st = shape ->
    exists st', fadd_samples P (Some st) l = Ok (Some st') /\ fst_shape st' = shape /\
      fst_norm st' = fst_norm st + lenZ l /\
      (forall i, I i -> fst_first st' i = fold_left dplus (map (fun x => V x i) l) (fst_first st i)) /\
      (forall i, fst_first st i = B754_nan -> fst_first st' i = B754_nan).
  Proof.
    induction l as [|x t IH]; intros st H HS.
    - exists st. split; [reflexivity|]. split; [assumption|]. split; [unfold lenZ; cbn; lia|]. split; [reflexivity|auto].
    - destruct (H x (or_introl eq_refl)) as (f & E & F). unfold fadd_samples. cbn [foldM].
      rewrite E. unfold faccumulate. cbn [bind]. rewrite HS, shape_refl. cbn [bind].
      match goal with |- context [Some ?s] => match s with mkfstat _ _ _ => set (st1 := s) end end.
      destruct (IH st1) as (st' & E' & S' & N' & F' & Q'); [intros; apply H; now right|reflexivity|].
      exists st'. split; [exact E'|]. split; [exact S'|]. split; [rewrite N'; unfold lenZ; cbn [fst_norm st1 length]; lia|].
      split.
      + intros i Hi. rewrite F' by assumption. unfold st1. cbn [fst_first map fold_left]. rewrite F by assumption. reflexivity.
      + intros i Hi. apply Q'. unfold st1. cbn [fst_first]. rewrite Hi. reflexivity.
  Qed.

  Lemma fhistory : forall st0 start l, fallocate shape = Ok st0 -> fst_shape st0 = shape -> fst_norm st0 = 0 ->
    start = None \/ start = Some st0 -> l <> [] -> (forall x, In x l -> fcontributes x) ->
    exists st', fadd_samples P start l = Ok (Some st') /\ fst_shape st' = shape /\
      (forall i, I i -> fmean st' i = ddiv (fold_left dplus (map (fun x => V x i) l) (fst_first st0 i)) (dz (lenZ l))) /\
      (forall i, fst_first st0 i = B754_nan -> fmean st' i = B754_nan).
  Proof.
    intros st0 start l A HS HN HI HL H.
    destruct (fhistory_from l st0 H HS) as (st' & E & S' & N & F & Q).
    exists st'. split; [|split; [exact S'|split]].
    - destruct HI as [-> | ->]; [|exact E]. rewrite <- E. destruct l as [|x t]; [congruence|].
      unfold fadd_samples. cbn [foldM]. destruct (H x (or_introl eq_refl)) as (f & Ef & _). rewrite !Ef.
      unfold faccumulate. rewrite A. reflexivity.
    - intros i Hi. unfold fmean. rewrite F by assumption. rewrite N, HN. reflexivity.
    - intros i Hi. unfold fmean. rewrite Q by assumption. reflexivity.
  Qed.
End History.

Definition fvalue1 P (x : fdata) (i : list Z) : double :=
  match x with
  | FSample1 dt n hat _ => ddiv (fcast dt (P (hat (low n (nth 0 i 0))) (hat (opposite n (low n (nth 0 i 0)))))) (dz n)
  | _ => dzero
  end.
Definition fvalue2 P (x : fdata) (i : list Z) : double :=
  match x with
  | FSample2 dt n m hat _ => ddiv (fcast dt (P (hat (low n (nth 0 i 0)) (low m (nth 1 i 0)))
      (hat (opposite n (low n (nth 0 i 0))) (opposite m (low m (nth 1 i 0)))))) (dz (n * m))
  | _ => dzero
  end.

Lemma fstructure1 : forall P dt n start l, 1 <= n -> ffresh_structure [n] start -> l <> [] ->
  exists st, fadd_samples P start (fsamples1 dt n l) = Ok (Some st) /\ fst_shape st = [n] /\
    forall k, 0 <= k < n ->
      (~ nyquist n k -> fmean st [k] = ddiv (fold_left dplus (map (fun s => ddiv (fcast dt (P (snd (fst s) (low n k)) (snd (fst s) (opposite n (low n k))))) (dz n)) l) dzero) (dz (lenZ l))) /\
      (nyquist n k -> fmean st [k] = B754_nan).
Proof.
  intros P dt n start l Hn HF HL.
  set (z := mkfstat [n] (fun i => if (n mod 2 =? 0) && (nth 0 i 0 =? n / 2) then B754_nan else dzero) 0).
  destruct (fhistory P [n] (fun i => exists k, i = [k] /\ 0 <= k < n /\ ~ nyquist n k) (fvalue1 P) z start (fsamples1 dt n l)) as (st & E & SH & M & N).
  - reflexivity.
  - reflexivity.
  - reflexivity.
  - destruct HF as [-> |(s & A & ->)]; [now left|]. right. injection A as <-. reflexivity.
  - destruct l; [congruence|discriminate].
  - intros x Hx. apply in_map_iff in Hx. destruct Hx as (s & <- & Hs).
    destruct (fsample1_ok P dt n (snd (fst s)) (snd s) Hn) as (r & Er & Hr).
    exists (fun i => vat r (nth 0 i 0)). split; [intro st; cbn [fadd_sample]; now rewrite Er|].
    intros i (k & -> & Hk & Q). cbn [nth]. exact (Hr k Hk Q).
  - exists st. split; [exact E|]. split; [exact SH|]. intros k Hk. split; intro Q.
    + rewrite M by eauto. unfold z. cbn [fst_first nth]. unfold nyquist in Q.
      replace ((n mod 2 =? 0) && (k =? n / 2)) with false by (Z.to_euclidean_division_equations; lia).
      unfold fsamples1, lenZ. rewrite map_map, map_length. reflexivity.
    + apply N. unfold z. cbn [fst_first nth]. unfold nyquist in Q.
      replace ((n mod 2 =? 0) && (k =? n / 2)) with true by (Z.to_euclidean_division_equations; lia). reflexivity.
Qed.

Lemma fstructure2 : forall P dt n m start l, 1 <= n -> 1 <= m -> n mod 2 = m mod 2 -> ffresh_structure [n; m] start -> l <> [] ->
  exists st, fadd_samples P start (fsamples2 dt n m l) = Ok (Some st) /\ fst_shape st = [n; m] /\
    forall i j, 0 <= i < n -> 0 <= j < m ->
      (same_half n m i j -> fmean st [i; j] = ddiv (fold_left dplus (map (fun s => ddiv (fcast dt
         (P (snd (fst s) (low n i) (low m j)) (snd (fst s) (opposite n (low n i)) (opposite m (low m j))))) (dz (n * m))) l) dzero) (dz (lenZ l))) /\
      (nyquist n i \/ nyquist m j -> fmean st [i; j] = B754_nan).
Proof.
  intros P dt n m start l Hn Hm HP HF HL.
  set (z := mkfstat [n; m] (fun i => if (n mod 2 =? 0) && ((nth 0 i 0 =? n / 2) || (nth 1 i 0 =? m / 2)) then B754_nan else dzero) 0).
  assert (AL : fallocate [n; m] = Ok z) by (cbn [fallocate]; rewrite HP, eqb_reflx; unfold z; rewrite HP; reflexivity).
  destruct (fhistory P [n; m] (fun x => exists i j, x = [i; j] /\ 0 <= i < n /\ 0 <= j < m /\ same_half n m i j) (fvalue2 P) z start (fsamples2 dt n m l)) as (st & E & SH & M & N).
  - exact AL.
  - reflexivity.
  - reflexivity.
  - destruct HF as [-> |(s & A & ->)]; [now left|]. right. rewrite AL in A. injection A as <-. reflexivity.
  - destruct l; [congruence|discriminate].
  - intros x Hx. apply in_map_iff in Hx. destruct Hx as (s & <- & Hs).
    destruct (fsample2_ok P dt n m (snd (fst s)) (snd s) Hn Hm) as (r & Er & Hr).
    exists (fun i => mat_at r (nth 0 i 0) (nth 1 i 0)). split; [intro st; cbn [fadd_sample]; now rewrite Er|].
    intros x (i & j & -> & Hi & Hj & Q). cbn [nth]. exact (Hr i j Hi Hj Q).
  - exists st. split; [exact E|]. split; [exact SH|]. intros i j Hi Hj. split; intro Q.
    + rewrite M by eauto 10. unfold z. cbn [fst_first nth]. unfold same_half in Q.
      replace ((n mod 2 =? 0) && ((i =? n / 2) || (j =? m / 2))) with false by (Z.to_euclidean_division_equations; lia).
      unfold fsamples2, lenZ. rewrite map_map, map_length. reflexivity.
    + apply N. unfold z. cbn [fst_first nth]. unfold nyquist in Q.
      replace ((n mod 2 =? 0) && ((i =? n / 2) || (j =? m / 2))) with true by (Z.to_euclidean_division_equations; lia). reflexivity.
Qed.

(** ** Errors *)

Lemma fcast_error : forall dt p, finite p -> (Rabs (val p) <= bpow radix2 52)%R ->
  finite (fcast dt p) /\ (Rabs (val (fcast dt p) - val p) <= match dt with Float => 0 | Integer => 1 end)%R.
Proof.
  intros dt p F B. destruct dt; cbn [fcast]; [split; [exact F|rewrite Rminus_diag_eq, Rabs_R0 by reflexivity; lra]|].
  assert (T : Btrunc p = Ztrunc (val p)).
  { apply eq_IZR. rewrite (Btrunc_correct 53 1024 exponent). unfold val, round, scaled_mantissa, cexp, FIX_exp, F2R. cbn [Fnum Fexp Z.opp bpow]. rewrite !Rmult_1_r. reflexivity. }
  rewrite T. assert (D : (Rabs (IZR (Ztrunc (val p)) - val p) <= 1)%R).
  { destruct (Rle_or_lt 0 (val p)) as [H|H].
    - rewrite Ztrunc_floor by exact H. pose proof (Zfloor_lb (val p)). pose proof (Zfloor_ub (val p)). apply Rabs_le. lra.
    - rewrite Ztrunc_ceil by lra. pose proof (Zceil_lb (val p)). pose proof (Zceil_ub (val p)). apply Rabs_le. lra. }
  destruct (dz_value (Ztrunc (val p))) as [Fz Vz].
  - apply le_IZR. rewrite abs_IZR. apply Rabs_le_inv in D. apply Rabs_le_inv in B. change (IZR (2 ^ 53)) with (bpow radix2 53).
    change 53%Z with (1 + 52)%Z. rewrite bpow_plus. change (bpow radix2 1) with 2%R.
    assert (1 <= bpow radix2 52)%R by (change 1%R with (bpow radix2 0); apply bpow_le; lia). apply Rabs_le. lra.
  - rewrite Vz. split; [exact Fz|exact D].
Qed.

Lemma sum_le : forall n f g, 0 <= n -> (forall j, 0 <= j < n -> (f j <= g j)%R) -> (sum_below n f <= sum_below n g)%R.
Proof.
  intros n f g Hn. pattern n. apply natlike_ind; [|intros m Hm IH H|exact Hn].
  - intros _. rewrite !sum_0. lra.
  - change (Z.succ m) with (m + 1) in *. rewrite !sum_succ by exact Hm. apply Rplus_le_compat; [apply IH; intros; apply H; lia|apply H; lia].
Qed.

Lemma sum_abs : forall n f, 0 <= n -> (Rabs (sum_below n f) <= sum_below n (fun j => Rabs (f j)))%R.
Proof.
  intros n f Hn. pattern n. apply natlike_ind; [|intros m Hm IH|exact Hn].
  - rewrite !sum_0, Rabs_R0. lra.
  - change (Z.succ m) with (m + 1). rewrite !sum_succ by exact Hm. apply Rle_trans with (1 := Rabs_triang _ _). lra.
Qed.

Lemma abs_cos : forall x y, (Rabs (x * cos y) <= Rabs x)%R.
Proof. intros x y. rewrite Rabs_mult. rewrite <- (Rmult_1_r (Rabs x)) at 2. apply Rmult_le_compat_l; [apply Rabs_pos|]. apply Rabs_le. apply COS_bound. Qed.
Lemma abs_sin : forall x y, (Rabs (x * sin y) <= Rabs x)%R.
Proof. intros x y. rewrite Rabs_mult. rewrite <- (Rmult_1_r (Rabs x)) at 2. apply Rmult_le_compat_l; [apply Rabs_pos|]. apply Rabs_le. apply SIN_bound. Qed.

(** What remains for an entry that is the product of two opposite components. *)
Section Entry.
  Variable P : fcomplex -> fcomplex -> double.
  Variable dt : dtype.
  Variables (A d : R) (size : Z).
  Hypothesis HP : product P.
  Hypothesis HA : moderate A.
  Hypothesis HA' : (A <= bpow radix2 390)%R.
  Hypothesis Hd : (0 <= d)%R.
  Hypothesis Hs : 1 <= size <= 2 ^ 50.
  Hypothesis Hdt : dt = Integer -> (1 <= A /\ A ^ 2 <= IZR (2 ^ 49))%R.

  Definition extra : R := match dt with Float => 0 | Integer => 1 end.

  Lemma entry_value : forall x y C S, (Rabs C + d <= A)%R -> (Rabs S + d <= A)%R ->
    right_up_to d C (fst x) -> right_up_to d (- S) (snd x) -> right_up_to d C (fst y) -> right_up_to d S (snd y) ->
    finite (ddiv (fcast dt (P x y)) (dz size)) /\
    (Rabs (val (ddiv (fcast dt (P x y)) (dz size)) ) <= 9 * (A * A) / IZR size)%R /\
    (Rabs (val (ddiv (fcast dt (P x y)) (dz size)) - (C ^ 2 + S ^ 2) / IZR size) <= (4 * A * d + extra + 15 * eps * (A * A)) / IZR size)%R.
  Proof.
    intros x y C S HC HS X1 X2 Y1 Y2. destruct (entry_error P x y A d C S HP HA Hd HC HS X1 X2 Y1 Y2) as [F E].
    destruct (moderate_square A HA) as (A0 & AL & AU). pose proof u_pos as U0. pose proof u_small as US.
    assert (EA : (3 * eps * (A * A) <= A * A)%R) by (rewrite eps_u; nra).
    assert (BC : (Rabs (C ^ 2 + S ^ 2) <= 2 * (A * A))%R).
    { rewrite Rabs_pos_eq by nra. rewrite <- (pow2_abs C), <- (pow2_abs S). pose proof (Rabs_pos C). pose proof (Rabs_pos S). nra. }
    assert (DA : (4 * A * d <= 4 * (A * A))%R) by (pose proof (Rabs_pos C); nra).
    assert (FC : finite (fcast dt (P x y)) /\ (Rabs (val (fcast dt (P x y)) - val (P x y)) <= extra)%R).
    { unfold extra. destruct dt.
      - cbn [fcast]. split; [exact F|]. rewrite Rminus_diag_eq, Rabs_R0 by reflexivity. lra.
      - apply (fcast_error Integer); [exact F|]. destruct (Hdt eq_refl) as [_ H2].
        replace (val (P x y)) with ((val (P x y) - (C ^ 2 + S ^ 2)) + (C ^ 2 + S ^ 2))%R by ring. apply Rle_trans with (1 := Rabs_triang _ _).
        change 52%Z with (3 + 49)%Z. rewrite bpow_plus. change (bpow radix2 3) with 8%R. change (IZR (2 ^ 49)) with (bpow radix2 49) in H2. nra. }
    destruct FC as [FC EC].
    assert (XA : (extra <= A * A)%R) by (unfold extra; destruct dt; [nra|destruct (Hdt eq_refl); nra]).
    destruct (divided_error (fcast dt (P x y)) (C ^ 2 + S ^ 2) A (4 * A * d + extra + 3 * eps * (A * A)) size FC HA) as (F' & E' & B').
    - replace (val (fcast dt (P x y)) - (C ^ 2 + S ^ 2))%R with ((val (fcast dt (P x y)) - val (P x y)) + (val (P x y) - (C ^ 2 + S ^ 2)))%R by ring.
      apply Rle_trans with (1 := Rabs_triang _ _). lra.
    - exact BC.
    - lra.
    - exact Hs.
    - split; [exact F'|]. split; [exact B'|]. apply Rle_trans with (1 := E'). right. f_equal. ring.
  Qed.

  Lemma entries_average : forall {T} (x y : T -> fcomplex) (C S : T -> R) l, l <> [] -> lenZ l <= 2 ^ 50 ->
    (forall s, In s l -> (Rabs (C s) + d <= A)%R /\ (Rabs (S s) + d <= A)%R /\
      right_up_to d (C s) (fst (x s)) /\ right_up_to d (- S s) (snd (x s)) /\ right_up_to d (C s) (fst (y s)) /\ right_up_to d (S s) (snd (y s))) ->
    right_up_to (structure_error A d size (length l) + extra / IZR size) (average (fun s => (C s ^ 2 + S s ^ 2) / IZR size)%R l)
      (ddiv (fold_left dplus (map (fun s => ddiv (fcast dt (P (x s) (y s))) (dz size)) l) dzero) (dz (lenZ l))).
  Proof.
    intros T x y C S l HN HL H. destruct (moderate_square A HA) as (A0 & AL & AU).
    assert (S1 : (1 <= IZR size)%R) by (apply IZR_le; lia).
    assert (S2 : (IZR size <= bpow radix2 50)%R) by (change (bpow radix2 50) with (IZR (2 ^ 50)); apply IZR_le; lia).
    assert (I0 : (0 < / IZR size)%R) by (apply Rinv_0_lt_compat; lra).
    assert (I1 : (/ IZR size <= 1)%R) by (rewrite <- Rinv_1; apply Rinv_le; lra).
    assert (I2 : (bpow radix2 (-50) <= / IZR size)%R) by (change (-50)%Z with (- (50))%Z; rewrite bpow_opp; apply Rinv_le; lra).
    assert (A2 : (0 < A * A)%R) by nra.
    destruct (averages (fun s => ddiv (fcast dt (P (x s) (y s))) (dz size)) (fun s => (C s ^ 2 + S s ^ 2) / IZR size)%R l
      ((4 * A * d + extra + 15 * eps * (A * A)) / IZR size) (9 * (A * A) / IZR size) HN HL) as [F E].
    - split.
      + apply Rle_trans with (bpow radix2 (-800) * bpow radix2 (-50))%R; [rewrite <- bpow_plus; apply bpow_le; lia|].
        apply Rmult_le_compat; try apply bpow_ge_0; lra.
      + apply Rle_trans with (9 * (A * A))%R; [unfold Rdiv; rewrite <- (Rmult_1_r (9 * (A * A))) at 2; apply Rmult_le_compat_l; lra|].
        apply Rle_trans with (bpow radix2 4 * (bpow radix2 390 * bpow radix2 390))%R; [|rewrite <- !bpow_plus; apply bpow_le; lia].
        change (bpow radix2 4) with 16%R. apply Rmult_le_compat; try lra. apply Rmult_le_compat; lra.
    - intros s Hs'. destruct (H s Hs') as (HC & HS & X1 & X2 & Y1 & Y2).
      destruct (entry_value (x s) (y s) (C s) (S s) HC HS X1 X2 Y1 Y2) as (Q1 & Q2 & Q3). auto.
    - split; [exact F|]. apply Rle_trans with (1 := E). right. unfold structure_error, unit. unfold Rdiv. ring.
  Qed.
End Entry.

(** ** Components *)

Definition cos1 (n : Z) (u : Z -> R) (k : Z) : R := sum_below n (fun j => u j * cos (2 * PI * (IZR j * IZR k / IZR n)))%R.
Definition sin1 (n : Z) (u : Z -> R) (k : Z) : R := sum_below n (fun j => u j * sin (2 * PI * (IZR j * IZR k / IZR n)))%R.

Lemma power_parts : forall n u k, power n u k = (cos1 n u k ^ 2 + sin1 n u k ^ 2)%R.
Proof. reflexivity. Qed.
Lemma power2_parts : forall n m u k l, power2 n m u k l = (cosines n m u k l ^ 2 + sines n m u k l ^ 2)%R.
Proof. reflexivity. Qed.

Lemma wave1_opp : forall n j k s, 0 < n -> (2 * PI * (IZR j * IZR (s * n - k) / IZR n) = - (2 * PI * (IZR j * IZR k / IZR n)) + 2 * PI * IZR (j * s))%R.
Proof. intros n j k s H. assert (IZR n <> 0)%R by (apply IZR_neq; lia). rewrite minus_IZR, !mult_IZR. field. assumption. Qed.

Lemma cos1_opp : forall n u k, 0 <= k < n -> cos1 n u (opposite n k) = cos1 n u k.
Proof.
  intros n u k H. destruct (opposite_turn n k H) as [s ->]. unfold cos1. apply sum_ext. intros j _.
  rewrite wave1_opp, cos_turns, cos_neg by lia. reflexivity.
Qed.
Lemma sin1_opp : forall n u k, 0 <= k < n -> sin1 n u (opposite n k) = (- sin1 n u k)%R.
Proof.
  intros n u k H. destruct (opposite_turn n k H) as [s ->]. unfold sin1. rewrite <- sum_opp by lia. apply sum_ext. intros j _.
  rewrite wave1_opp, sin_turns, sin_neg by lia. ring.
Qed.

Lemma wave2_opp' : forall n m a b k l s t, 0 < n -> 0 < m ->
  (2 * PI * (IZR a * IZR (s * n - k) / IZR n + IZR b * IZR (t * m - l) / IZR m) =
   - (2 * PI * (IZR a * IZR k / IZR n + IZR b * IZR l / IZR m)) + 2 * PI * IZR (a * s + b * t))%R.
Proof.
  intros n m a b k l s t Hn Hm. assert (IZR n <> 0)%R by (apply IZR_neq; lia). assert (IZR m <> 0)%R by (apply IZR_neq; lia).
  rewrite !minus_IZR, plus_IZR, !mult_IZR. field. split; assumption.
Qed.
Lemma cos2_opp : forall n m u k l, 0 <= k < n -> 0 <= l < m -> cosines n m u (opposite n k) (opposite m l) = cosines n m u k l.
Proof.
  intros n m u k l Hk Hl. destruct (opposite_turn n k Hk) as [s ->]. destruct (opposite_turn m l Hl) as [t ->]. unfold cosines.
  apply sum_ext. intros a _. apply sum_ext. intros b _. rewrite wave2_opp', cos_turns, cos_neg by lia. reflexivity.
Qed.
Lemma sin2_opp : forall n m u k l, 0 <= k < n -> 0 <= l < m -> sines n m u (opposite n k) (opposite m l) = (- sines n m u k l)%R.
Proof.
  intros n m u k l Hk Hl. destruct (opposite_turn n k Hk) as [s ->]. destruct (opposite_turn m l Hl) as [t ->]. unfold sines.
  rewrite <- sum_opp by lia. apply sum_ext. intros a _. rewrite <- sum_opp by lia. apply sum_ext. intros b _.
  rewrite wave2_opp', sin_turns, sin_neg by lia. ring.
Qed.

Lemma cos1_bound : forall n u k, 0 <= n -> (Rabs (cos1 n u k) <= sum_below n (fun j => Rabs (u j)))%R.
Proof. intros n u k H. apply Rle_trans with (1 := sum_abs n _ H). apply sum_le; [exact H|]. intros. apply abs_cos. Qed.
Lemma sin1_bound : forall n u k, 0 <= n -> (Rabs (sin1 n u k) <= sum_below n (fun j => Rabs (u j)))%R.
Proof. intros n u k H. apply Rle_trans with (1 := sum_abs n _ H). apply sum_le; [exact H|]. intros. apply abs_sin. Qed.
Lemma cos2_bound : forall n m u k l, 0 <= n -> 0 <= m -> (Rabs (cosines n m u k l) <= sum_below n (fun a => sum_below m (fun b => Rabs (u a b))))%R.
Proof.
  intros n m u k l H H'. apply Rle_trans with (1 := sum_abs n _ H). apply sum_le; [exact H|]. intros a _.
  apply Rle_trans with (1 := sum_abs m _ H'). apply sum_le; [exact H'|]. intros. apply abs_cos.
Qed.
Lemma sin2_bound : forall n m u k l, 0 <= n -> 0 <= m -> (Rabs (sines n m u k l) <= sum_below n (fun a => sum_below m (fun b => Rabs (u a b))))%R.
Proof.
  intros n m u k l H H'. apply Rle_trans with (1 := sum_abs n _ H). apply sum_le; [exact H|]. intros a _.
  apply Rle_trans with (1 := sum_abs m _ H'). apply sum_le; [exact H'|]. intros. apply abs_sin.
Qed.

Lemma low_range : forall n k, 0 <= k < n -> 0 <= low n k < n.
Proof. intros n k H. unfold low. destruct (2 * k <? n) eqn:E; lia. Qed.
Lemma opposite_range : forall n k, 0 < n -> 0 <= opposite n k < n.
Proof. intros n k H. apply Z.mod_pos_bound. exact H. Qed.
Lemma power_low : forall n u k, 0 <= k < n -> power n u (low n k) = power n u k.
Proof. intros n u k H. unfold low. destruct (2 * k <? n); [reflexivity|apply power_opp; lia]. Qed.
Lemma power2_low : forall n m u i j, 0 <= i < n -> 0 <= j < m -> same_half n m i j -> power2 n m u (low n i) (low m j) = power2 n m u i j.
Proof.
  intros n m u i j Hi Hj [[A B]|[A B]]; unfold low.
  - replace (2 * i <? n) with true by lia. replace (2 * j <? m) with true by lia. reflexivity.
  - replace (2 * i <? n) with false by lia. replace (2 * j <? m) with false by lia. apply power2_opp; lia.
Qed.

Lemma sized_moderate : forall A, (bpow radix2 (-400) <= A <= bpow radix2 390)%R -> moderate A.
Proof. intros A [H1 H2]. split; [exact H1|]. apply Rle_trans with (1 := H2). apply bpow_le. lia. Qed.

(** ** The theorems *)

Lemma ferror1 : forall P dt A d n start l, product P -> 1 <= n <= 2 ^ 50 -> ffresh_structure [n] start -> l <> [] -> lenZ l <= 2 ^ 50 ->
  (dt = Integer -> (1 <= A /\ A ^ 2 <= IZR (2 ^ 49))%R) ->
  (forall s, In s l -> sized1 A d n (fst (fst s)) /\ transform1 d n (fst (fst s)) (snd (fst s))) ->
  exists st, fadd_samples P start (fsamples1 dt n l) = Ok (Some st) /\ fst_shape st = [n] /\
    forall k, 0 <= k < n ->
      (~ nyquist n k -> right_up_to (structure_error A d n (length l) + extra dt / IZR n)
         (average (fun s => power n (fst (fst s)) k / IZR n) l)%R (fmean st [k])) /\
      (nyquist n k -> fmean st [k] = B754_nan).
Proof.
  intros P dt A d n start l HP Hn HF HL HN HI H. destruct (fstructure1 P dt n start l ltac:(lia) HF HL) as (st & E & SH & M).
  exists st. split; [exact E|]. split; [exact SH|]. intros k Hk. destruct (M k Hk) as [M1 M2]. split; [|exact M2].
  intro Q. rewrite M1 by exact Q.
  assert (G : (bpow radix2 (-400) <= A <= bpow radix2 390)%R /\ (0 <= d)%R).
  { destruct l as [|s t]; [congruence|]. destruct (H s (or_introl eq_refl)) as [(G1 & G2 & _) _]. split; assumption. }
  destruct G as [GA Gd]. pose proof (low_range n k Hk) as LR. pose proof (opposite_range n (low n k) ltac:(lia)) as OR.
  replace (average (fun s => power n (fst (fst s)) k / IZR n)%R l)
    with (average (fun s => (cos1 n (fst (fst s)) (low n k) ^ 2 + sin1 n (fst (fst s)) (low n k) ^ 2) / IZR n)%R l)
    by (apply average_ext; intros s _; rewrite <- power_parts, power_low by exact Hk; reflexivity).
  apply (entries_average P dt A d n HP (sized_moderate A GA) (proj2 GA) Gd Hn HI
    (fun s => snd (fst s) (low n k)) (fun s => snd (fst s) (opposite n (low n k))) _ _ l HL HN).
  intros s Hs. destruct (H s Hs) as [(_ & _ & SB) TR].
  pose proof (cos1_bound n (fst (fst s)) (low n k) ltac:(lia)). pose proof (sin1_bound n (fst (fst s)) (low n k) ltac:(lia)).
  destruct (TR _ LR) as [T1 T2]. destruct (TR _ OR) as [T3 T4].
  fold (cos1 n (fst (fst s)) (low n k)) in T1. fold (sin1 n (fst (fst s)) (low n k)) in T2.
  fold (cos1 n (fst (fst s)) (opposite n (low n k))) in T3. fold (sin1 n (fst (fst s)) (opposite n (low n k))) in T4.
  rewrite cos1_opp in T3 by exact LR. rewrite sin1_opp, Ropp_involutive in T4 by exact LR.
  split; [lra|]. split; [lra|]. auto.
Qed.

Lemma ferror2 : forall P dt A d n m start l, product P -> 1 <= n -> 1 <= m -> n * m <= 2 ^ 50 -> n mod 2 = m mod 2 ->
  ffresh_structure [n; m] start -> l <> [] -> lenZ l <= 2 ^ 50 ->
  (dt = Integer -> (1 <= A /\ A ^ 2 <= IZR (2 ^ 49))%R) ->
  (forall s, In s l -> sized2 A d n m (fst (fst s)) /\ transform2 d n m (fst (fst s)) (snd (fst s))) ->
  exists st, fadd_samples P start (fsamples2 dt n m l) = Ok (Some st) /\ fst_shape st = [n; m] /\
    forall i j, 0 <= i < n -> 0 <= j < m ->
      (2 * i < n /\ 2 * j < m \/ n < 2 * i /\ m < 2 * j -> right_up_to (structure_error A d (n * m) (length l) + extra dt / IZR (n * m))
         (average (fun s => power2 n m (fst (fst s)) i j / IZR (n * m)) l)%R (fmean st [i; j])) /\
      (nyquist n i \/ nyquist m j -> fmean st [i; j] = B754_nan).
Proof.
  intros P dt A d n m start l HP Hn Hm Hs HPar HF HL HN HI H. destruct (fstructure2 P dt n m start l Hn Hm HPar HF HL) as (st & E & SH & M).
  exists st. split; [exact E|]. split; [exact SH|]. intros i j Hi Hj. destruct (M i j Hi Hj) as [M1 M2]. split; [|exact M2].
  intro Q. rewrite M1 by exact Q.
  assert (G : (bpow radix2 (-400) <= A <= bpow radix2 390)%R /\ (0 <= d)%R).
  { destruct l as [|s t]; [congruence|]. destruct (H s (or_introl eq_refl)) as [(G1 & G2 & _) _]. split; assumption. }
  destruct G as [GA Gd]. pose proof (low_range n i Hi) as LR. pose proof (low_range m j Hj) as LR'.
  pose proof (opposite_range n (low n i) ltac:(lia)) as OR. pose proof (opposite_range m (low m j) ltac:(lia)) as OR'.
  replace (average (fun s => power2 n m (fst (fst s)) i j / IZR (n * m))%R l)
    with (average (fun s => (cosines n m (fst (fst s)) (low n i) (low m j) ^ 2 + sines n m (fst (fst s)) (low n i) (low m j) ^ 2) / IZR (n * m))%R l)
    by (apply average_ext; intros s _; rewrite <- power2_parts, power2_low by assumption; reflexivity).
  apply (entries_average P dt A d (n * m) HP (sized_moderate A GA) (proj2 GA) Gd ltac:(nia) HI
    (fun s => snd (fst s) (low n i) (low m j)) (fun s => snd (fst s) (opposite n (low n i)) (opposite m (low m j))) _ _ l HL HN).
  intros s Hs'. destruct (H s Hs') as [(_ & _ & SB) TR].
  pose proof (cos2_bound n m (fst (fst s)) (low n i) (low m j) ltac:(lia) ltac:(lia)). pose proof (sin2_bound n m (fst (fst s)) (low n i) (low m j) ltac:(lia) ltac:(lia)).
  destruct (TR _ _ LR LR') as [T1 T2]. destruct (TR _ _ OR OR') as [T3 T4].
  rewrite cos2_opp in T3 by assumption. rewrite sin2_opp, Ropp_involutive in T4 by assumption.
  split; [lra|]. split; [lra|]. auto.
Qed.
