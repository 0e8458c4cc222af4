(** * Properties_StructureVar: C111

    [spread f l]: the unbiased variance of [f] over [l]; [power], [nyquist], [rotated], [samples1]:
    see SpecStructure.  The result of [variance] is [Ok None] for NaN. *)

From Coq Require Import ZArith List Bool Reals Lra Lia Permutation.
From Verif Require Import Base Structure SpecStructure StructureVar SpecStructureVar StructureVarTop.
Import ListNotations.
Open Scope Z_scope.

(** One dimension: the variance of the structure factor over the samples, NaN at the Nyquist
    frequency. *)
Theorem C111_variance_1d : forall n start l, 1 <= n -> vfresh true [n] start -> (2 <= length l)%nat ->
  exists st, vadd_samples true start (samples1 n l) = Ok (Some st) /\
    forall k, 0 <= k < n ->
      (~ nyquist n k -> variance st [k] = Ok (Some (spread (fun s => power n (fst s) k / IZR n)%R l))) /\
      (nyquist n k -> variance st [k] = Ok None).
Proof. exact variance1. Qed.
Print Assumptions C111_variance_1d.

(** Two dimensions: only at frequencies that are both positive or both negative. *)
Theorem C111_variance_2d_partial : forall n m start l, 1 <= n -> 1 <= m -> n mod 2 = m mod 2 ->
  vfresh true [n; m] start -> (2 <= length l)%nat ->
  exists st, vadd_samples true start (samples2 n m l) = Ok (Some st) /\
    forall i j, 0 <= i < n -> 0 <= j < m ->
      (2 * i < n /\ 2 * j < m \/ n < 2 * i /\ m < 2 * j ->
         variance st [i; j] = Ok (Some (spread (fun s => power2 n m (fst s) i j / IZR (n * m))%R l))) /\
      (nyquist n i \/ nyquist m j -> variance st [i; j] = Ok None).
Proof. exact variance2. Qed.
Print Assumptions C111_variance_2d_partial.

(** Elsewhere even the same sample twice can have a variance: memory that was never written. *)
Theorem C111_variance_2d_refuted : exists n m u junk junk' i j st v, 0 <= i < n /\ 0 <= j < m /\ ~ nyquist n i /\ ~ nyquist m j /\
  vadd_samples true None (samples2 n m [(u, junk); (u, junk')]) = Ok (Some st) /\ variance st [i; j] = Ok (Some v) /\ (0 < v)%R.
Proof. exact variance2_refuted. Qed.
Print Assumptions C111_variance_2d_refuted.

(** Asking for the variance or not changes nothing else: the same samples are accepted and the
    averages are those of [Structure]. *)
Theorem C111_averages_as_before : forall cv l,
  match vadd_samples cv None l, add_samples None l with
  | Ok (Some st), Ok (Some st') => st_shape (vs_base st) = st_shape st' /\ forall i, vmean st i = mean st' i
  | Ok None, Ok None => True
  | Throw, Throw => True
  | _, _ => False
  end.
Proof. exact averages_as_before. Qed.
Print Assumptions C111_averages_as_before.

(** Never negative, and zero exactly if all samples have the same structure factor. *)
Theorem C111_nonnegative : forall n start l, 1 <= n -> vfresh true [n] start -> (2 <= length l)%nat ->
  exists st, vadd_samples true start (samples1 n l) = Ok (Some st) /\
    forall k, 0 <= k < n -> ~ nyquist n k -> exists v, variance st [k] = Ok (Some v) /\ (0 <= v)%R /\
      (v = 0%R <-> forall s s', In s l -> In s' l -> power n (fst s) k = power n (fst s') k).
Proof. exact variance_nonneg. Qed.
Print Assumptions C111_nonnegative.

Theorem C111_order_is_irrelevant : forall n l l', 1 <= n -> (2 <= length l)%nat -> Permutation l l' ->
  exists st st', vadd_samples true None (samples1 n l) = Ok (Some st) /\ vadd_samples true None (samples1 n l') = Ok (Some st') /\
    forall k, 0 <= k < n -> variance st [k] = variance st' [k].
Proof. exact variance_order. Qed.
Print Assumptions C111_order_is_irrelevant.

Theorem C111_origin_is_irrelevant : forall n l l', 1 <= n -> (2 <= length l)%nat ->
  Forall2 (fun s s' => exists t, 0 <= t /\ rotated n t (fst s) (fst s')) l l' ->
  exists st st', vadd_samples true None (samples1 n l) = Ok (Some st) /\ vadd_samples true None (samples1 n l') = Ok (Some st') /\
    forall k, 0 <= k < n -> variance st [k] = variance st' [k].
Proof. exact variance_origin. Qed.
Print Assumptions C111_origin_is_irrelevant.

Example C111_case : exists st, vadd_samples true None (samples1 3 [((fun j => IZR j), fun _ _ => 7%R); ((fun _ => 0%R), fun _ _ => 8%R)]) = Ok (Some st) /\
  vmean st [0] = Some (3 / 2)%R /\ variance st [0] = Ok (Some (9 / 2)%R).
Proof. exact variance_case. Qed.
