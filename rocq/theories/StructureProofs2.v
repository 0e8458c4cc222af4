(** * StructureProofs2: [Structure] in two dimensions, and histories of samples *)

From Coq Require Import ZArith List Bool Lia Reals Lra.
From Verif Require Import Base BaseLemmas Structure SpecStructure StructureProofs.
Import ListNotations.
Open Scope Z_scope.

Definition wave2 (n m a b k l : Z) : R := (2 * PI * (IZR a * IZR k / IZR n + IZR b * IZR l / IZR m))%R.

Lemma fft2_fst : forall n m u k l,
  fst (fft2 n m u k l) = sum_below n (fun a => sum_below m (fun b => u a b * cos (wave2 n m a b k l))%R).
Proof.
  intros. unfold fft2. rewrite csum_fst. apply sum_ext. intros. rewrite csum_fst. apply sum_ext. intros. cbn.
  unfold wave2. now rewrite !mult_IZR.
Qed.

Lemma sum_opp : forall n f, 0 <= n -> sum_below n (fun j => - f j)%R = (- sum_below n f)%R.
Proof.
  intros n f H. rewrite (sum_ext n _ (fun j => -1 * f j)%R) by (intros; ring). rewrite sum_scal by assumption. ring.
Qed.

Lemma fft2_snd : forall n m u k l, 0 <= n -> 0 <= m ->
  snd (fft2 n m u k l) = (- sum_below n (fun a => sum_below m (fun b => u a b * sin (wave2 n m a b k l))))%R.
Proof.
  intros. unfold fft2. rewrite csum_snd, <- sum_opp by assumption. apply sum_ext. intros.
  rewrite csum_snd, <- sum_opp by assumption. apply sum_ext. intros. cbn.
  unfold wave2. rewrite !mult_IZR. ring.
Qed.

Lemma wave2_opp : forall n m a b k l s t, 0 < n -> 0 < m ->
  wave2 n m a b (s * n - k) (t * m - l) = (- wave2 n m a b k l + 2 * PI * IZR (a * s + b * t))%R.
Proof.
  intros n m a b k l s t Hn Hm. unfold wave2. rewrite !minus_IZR, plus_IZR, !mult_IZR. apply IZR_lt in Hn, Hm.
  field. lra.
Qed.

Lemma fft2_opp : forall n m u k l k' l' s t, 0 < n -> 0 < m -> k' = s * n - k -> l' = t * m - l ->
  fft2 n m u k' l' = (fst (fft2 n m u k l), (- snd (fft2 n m u k l))%R).
Proof.
  intros n m u k l k' l' s t Hn Hm -> ->. rewrite (surjective_pairing (fft2 n m u (s * n - k) (t * m - l))). f_equal.
  - rewrite !fft2_fst. apply sum_ext. intros. apply sum_ext. intros.
    now rewrite wave2_opp, cos_turns, cos_neg by assumption.
  - rewrite !fft2_snd by lia. f_equal. rewrite <- sum_opp by lia. apply sum_ext. intros.
    rewrite <- sum_opp by lia. apply sum_ext. intros.
    rewrite wave2_opp, sin_turns, sin_neg by assumption. ring.
Qed.

Lemma power2_eq : forall n m u k l k' l' s t, 0 < n -> 0 < m -> k' = s * n - k -> l' = t * m - l ->
  fst (cmul (fft2 n m u k l) (fft2 n m u k' l')) = power2 n m u k l.
Proof.
  intros n m u k l k' l' s t Hn Hm Hk Hl. rewrite (fft2_opp n m u k l k' l' s t) by assumption.
  unfold cmul. cbn [fst snd]. rewrite fft2_fst, fft2_snd by lia. unfold power2. fold (wave2 n m).
  change (fun a => sum_below m (fun b => u a b * cos (2 * PI * (IZR a * IZR k / IZR n + IZR b * IZR l / IZR m)))%R)
    with (fun a => sum_below m (fun b => u a b * cos (wave2 n m a b k l)))%R.
  change (fun a => sum_below m (fun b => u a b * sin (2 * PI * (IZR a * IZR k / IZR n + IZR b * IZR l / IZR m)))%R)
    with (fun a => sum_below m (fun b => u a b * sin (wave2 n m a b k l)))%R.
  ring.
Qed.

Lemma opposite_turn : forall n k, 0 <= k < n -> exists s, opposite n k = s * n - k.
Proof.
  intros n k H. exists (- ((- k) / n)). unfold opposite. pose proof (Z.div_mod (- k) n ltac:(lia)). lia.
Qed.

Lemma power2_product : forall n m u k l, 0 <= k < n -> 0 <= l < m ->
  cmul (fft2 n m u k l) (fft2 n m u (opposite n k) (opposite m l)) = (power2 n m u k l, 0%R).
Proof.
  intros n m u k l Hk Hl. destruct (opposite_turn n k Hk) as [s Es]. destruct (opposite_turn m l Hl) as [t Et].
  rewrite <- (power2_eq n m u k l (opposite n k) (opposite m l) s t) by (auto; lia).
  rewrite (fft2_opp n m u k l (opposite n k) (opposite m l) s t) by (auto; lia). unfold cmul. cbn [fst snd]. f_equal. ring.
Qed.

Lemma power2_opp : forall n m u k l, 0 < n -> 0 < m -> power2 n m u (n - k) (m - l) = power2 n m u k l.
Proof.
  intros n m u k l Hn Hm.
  rewrite <- (power2_eq n m u (n - k) (m - l) k l 1 1), <- (power2_eq n m u k l (n - k) (m - l) 1 1) by lia.
  unfold cmul. cbn [fst]. ring.
Qed.

Lemma power2_nonneg : forall n m u k l, (0 <= power2 n m u k l)%R.
Proof. intros. unfold power2. apply Rplus_le_le_0_compat; apply pow2_ge_0. Qed.

(** The entries of one sample. *)
Definition entry2 (dt : dtype) (n m : Z) (u junk : Z -> Z -> R) (i j : Z) : R :=
  if (i =? 0) && (2 * j >? m) || (j =? 0) && (2 * i >? n) || (2 * i =? n) || (2 * j =? m) then junk i j
  else if (2 * i <? n) && (2 * j >? m)
  then cast dt (fst (cmul (fft2 n m u i (j - start_of m + 1)) (fft2 n m u i (m - 1 - (j - start_of m)))))
  else if (2 * i >? n) && (2 * j <? m)
  then cast dt (fst (cmul (fft2 n m u (i - start_of n + 1) j) (fft2 n m u (n - 1 - (i - start_of n)) j)))
  else cast dt (power2 n m u i j).

Lemma sample2_ok : forall dt n m u junk, 1 <= n -> 1 <= m ->
  exists r, sample2 dt n m u junk = Ok r /\ forall i j, 0 <= i < n -> 0 <= j < m ->
    mat_at r i j = (entry2 dt n m u junk i j / IZR (n * m))%R.
Proof.
  intros dt n m u junk Hn Hm.
  destruct (start_stop n Hn) as (A & B & C & D). destruct (start_stop m Hm) as (A' & B' & C' & D').
  unfold sample2, entry2.
  set (er := stop_of n) in *. set (sr := start_of n) in *. set (ec := stop_of m) in *. set (sc := start_of m) in *.
  clearbody er sr ec sc. if_false.
  unfold massign_row, massign_col, massign, vmul, vslice, vflip, vreal, mmul, mslice, mflip, mflip0, mflip1, mreal, mrow, mcol.
  cbn [vlen vat mrows mcols mat_at].
  Ltac go n m er sr ec sc := cbn [bind vlen vat mrows mcols mat_at];
    rewrite ?(Z.min_l 0 n), ?(Z.min_l 0 m), ?(Z.min_l 1 n), ?(Z.min_l 1 m), ?(Z.min_l (0 + 1) n), ?(Z.min_l (0 + 1) m),
    ?(Z.min_l er n), ?(Z.min_l sr n), ?(Z.min_l n n), ?(Z.min_l ec m), ?(Z.min_l sc m), ?(Z.min_l m m) by lia; try if_true.
  do 20 (go n m er sr ec sc).
  eexists. split; [reflexivity|]. cbn [mat_at]. intros i j Hi Hj. f_equal. specialize (D i). specialize (D' j).
  assert (Z.max 0 (er - 1) = er - 1) as -> by lia. assert (Z.max 0 (ec - 1) = ec - 1) as -> by lia.
  assert (Z.max 0 (n - sr) = n - sr) as -> by lia. assert (Z.max 0 (m - sc) = m - sc) as -> by lia.
  assert (R : i = 0 \/ 1 <= i < er \/ (er <= i < sr /\ 2 * i = n) \/ sr <= i) by lia.
  assert (R' : j = 0 \/ 1 <= j < ec \/ (ec <= j < sc /\ 2 * j = m) \/ sc <= j) by lia.
  Ltac decide_ifs := repeat match goal with |- context [if ?b then _ else _] =>
    first [replace b with true by lia | replace b with false by lia]; cbv iota end.
  destruct R as [->|[R|[[R R2]|R]]]; destruct R' as [->|[R'|[[R' R2']|R']]]; decide_ifs; try reflexivity.
  - f_equal; apply (power2_eq n m u 0 0 0 0 0 0); lia.
  - replace (1 + (j - 1)) with j by lia. f_equal; apply (power2_eq n m u 0 j _ _ 0 1); lia.
  - replace (1 + (i - 1)) with i by lia. f_equal; apply (power2_eq n m u i 0 _ _ 1 0); lia.
  - replace (1 + (i - 1)) with i by lia. replace (1 + (j - 1)) with j by lia. f_equal; apply (power2_eq n m u i j _ _ 1 1); lia.
  - replace (1 + (i - 1)) with i by lia. replace (1 + (j - sc)) with (j - sc + 1) by lia.
    replace (sc + (m - sc - 1 - (j - sc))) with (m - 1 - (j - sc)) by lia. reflexivity.
  - replace (1 + (i - sr)) with (i - sr + 1) by lia. replace (1 + (j - 1)) with j by lia.
    replace (sr + (n - sr - 1 - (i - sr))) with (n - 1 - (i - sr)) by lia. reflexivity.
  - f_equal. rewrite <- power2_opp by lia.
    replace (1 + (1 + (er - 1 - 1 - (i - sr)) - 1)) with (n - i) by lia.
    replace (1 + (1 + (ec - 1 - 1 - (j - sc)) - 1)) with (m - j) by lia.
    apply (power2_eq n m u (n - i) (m - j) _ _ 1 1); lia.
Qed.
