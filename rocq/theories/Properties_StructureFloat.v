(** * Properties_StructureFloat: C130, the structure factor in floating point

    [P] computes real parts of complex products in IEEE 754 arithmetic ([product P]).  A sample is
    its values, the transform that was computed of it (right up to [d], [transform1]), and the
    uninitialised memory of its result.  [right_up_to b r x]: the double [x] is finite and within
    [b] of [r]. *)

From Coq Require Import ZArith Reals List Bool Lia Lra.
From Flocq Require Import Core BinarySingleNaN.
From Verif Require Import Base Double Structure SpecStructure SpecStructureAll SpecError StructureFloat SpecStructureFloat.
From Verif Require Import StructureFloatTop StructureFloatLaws StructureFloatEnd.
Import ListNotations.
Open Scope Z_scope.

(** ** C130 *)

(** One dimension: right up to the error of the transforms and about [9 N] roundings. *)
Theorem C130_error_1d : forall P A d n start l, product P -> 1 <= n <= 2 ^ 50 -> ffresh_structure [n] start -> l <> [] -> lenZ l <= 2 ^ 50 ->
  (forall s, In s l -> sized1 A d n (fst (fst s)) /\ transform1 d n (fst (fst s)) (snd (fst s))) ->
  exists st, fadd_samples P start (fsamples1 Float n l) = Ok (Some st) /\ fst_shape st = [n] /\
    forall k, 0 <= k < n ->
      (~ nyquist n k -> right_up_to (structure_error A d n (length l))
         (average (fun s => power n (fst (fst s)) k / IZR n) l)%R (fmean st [k])) /\
      (nyquist n k -> fmean st [k] = B754_nan).
Proof. exact float_error1. Qed.
Print Assumptions C130_error_1d.

(** Two dimensions, the entries that are stored at all (C53). *)
Theorem C130_error_2d_partial : forall P A d n m start l, product P -> 1 <= n -> 1 <= m -> n * m <= 2 ^ 50 -> n mod 2 = m mod 2 ->
  ffresh_structure [n; m] start -> l <> [] -> lenZ l <= 2 ^ 50 ->
  (forall s, In s l -> sized2 A d n m (fst (fst s)) /\ transform2 d n m (fst (fst s)) (snd (fst s))) ->
  exists st, fadd_samples P start (fsamples2 Float n m l) = Ok (Some st) /\ fst_shape st = [n; m] /\
    forall i j, 0 <= i < n -> 0 <= j < m ->
      (2 * i < n /\ 2 * j < m \/ n < 2 * i /\ m < 2 * j -> right_up_to (structure_error A d (n * m) (length l))
         (average (fun s => power2 n m (fst (fst s)) i j / IZR (n * m)) l)%R (fmean st [i; j])) /\
      (nyquist n i \/ nyquist m j -> fmean st [i; j] = B754_nan).
Proof. exact float_error2. Qed.
Print Assumptions C130_error_2d_partial.

(** Arrays of integers: up to one more, because of the truncation. *)
Theorem C130_error_of_integers_1d : forall P A d n start l, product P -> 1 <= n <= 2 ^ 50 -> ffresh_structure [n] start -> l <> [] -> lenZ l <= 2 ^ 50 ->
  (1 <= A /\ A ^ 2 <= IZR (2 ^ 49))%R ->
  (forall s, In s l -> sized1 A d n (fst (fst s)) /\ transform1 d n (fst (fst s)) (snd (fst s))) ->
  exists st, fadd_samples P start (fsamples1 Integer n l) = Ok (Some st) /\
    forall k, 0 <= k < n -> ~ nyquist n k -> right_up_to (structure_error A d n (length l) + 1 / IZR n)
      (average (fun s => power n (fst (fst s)) k / IZR n) l)%R (fmean st [k]).
Proof. exact integer_error1. Qed.
Print Assumptions C130_error_of_integers_1d.

(** And that error is made: for integers whose structure factor is an integer (so that nothing
    is lost in exact arithmetic, C93), one unit in the last place of the transform suffices. *)
Theorem C130_integers_refuted : exists n u hat k, transform1 (bpow radix2 (-53)) n u hat /\ (forall j, 0 <= j < n -> exists z, u j = IZR z) /\
  0 <= k < n /\ ~ nyquist n k /\ power n u k = 1%R /\
  forall P junk, product P -> exists st st',
    fadd_samples P None [FSample1 Integer n hat junk] = Ok (Some st) /\ B2R (fmean st [k]) = 0%R /\
    fadd_samples P None [FSample1 Float n hat junk] = Ok (Some st') /\ (/ 4 <= B2R (fmean st' [k]) <= 1)%R.
Proof. exact fint_refuted. Qed.
Print Assumptions C130_integers_refuted.

(** Whatever the transform returned, opposite frequencies get the same number. *)
Theorem C130_exactly_even_1d : forall P dt n start l, 1 <= n -> ffresh_structure [n] start -> l <> [] ->
  exists st, fadd_samples P start (fsamples1 dt n l) = Ok (Some st) /\
    forall k, 0 <= k < n -> fmean st [opposite n k] = fmean st [k].
Proof. exact feven1. Qed.
Print Assumptions C130_exactly_even_1d.

Theorem C130_exactly_even_2d_partial : forall P dt n m start l, 1 <= n -> 1 <= m -> n mod 2 = m mod 2 -> ffresh_structure [n; m] start -> l <> [] ->
  exists st, fadd_samples P start (fsamples2 dt n m l) = Ok (Some st) /\
    forall i j, 0 < i < n -> 0 < j < m -> 2 * i < n /\ 2 * j < m \/ n < 2 * i /\ m < 2 * j ->
      fmean st [opposite n i; opposite m j] = fmean st [i; j].
Proof. exact feven2. Qed.
Print Assumptions C130_exactly_even_2d_partial.

(** Rounding does not make a structure factor negative, if opposite components of the transform
    are exactly each other's conjugates. *)
Theorem C130_not_negative_1d : forall P A n start l, product P -> (bpow radix2 (-400) <= A <= bpow radix2 390)%R -> 1 <= n <= 2 ^ 50 ->
  ffresh_structure [n] start -> l <> [] -> lenZ l <= 2 ^ 50 ->
  (forall s, In s l -> conjugates1 n (snd (fst s)) /\ forall k, 0 <= k < n -> right_up_to A 0 (fst (snd (fst s) k)) /\ right_up_to A 0 (snd (snd (fst s) k))) ->
  exists st, fadd_samples P start (fsamples1 Float n l) = Ok (Some st) /\
    forall k, 0 <= k < n -> ~ nyquist n k -> is_finite (fmean st [k]) = true /\ (0 <= B2R (fmean st [k]))%R.
Proof. exact fnonneg1. Qed.
Print Assumptions C130_not_negative_1d.

(** A case: one white pixel among three; the transform is wrong by one unit in the last place. *)
Example C130_case : product plain_product /\ sized1 2 (bpow radix2 (-53)) 3 one_point /\
  transform1 (bpow radix2 (-53)) 3 one_point its_transform /\ conjugates1 3 its_transform /\
  (structure_error 2 (bpow radix2 (-53)) 3 1 <= bpow radix2 (-45))%R /\
  exists st, fadd_samples plain_product None (fsamples1 Float 3 [((one_point, its_transform), fun _ => dzero)]) = Ok (Some st) /\
    right_up_to (bpow radix2 (-45)) (/ 3)%R (fmean st [1]) /\ fmean st [2] = fmean st [1].
Proof. exact float_case. Qed.
