(** * Properties_Freq: the frequencies of [Structure] in floating point (C146)

    C61 says which frequencies [q] and [qnorm] list, computed exactly.  Here they are doubles. *)

From Coq Require Import ZArith Reals List Bool.
From Flocq Require Import Core BinarySingleNaN.
From Verif Require Import Base Double Structure SpecStructure StructureFloat StructureFreq SpecFreq StructureFreqTop.
Import ListNotations.
Open Scope R_scope.

(** ** C146 *)
Theorem C146_frequencies_1d : forall st n axis, fst_shape st = [n] -> size n ->
  exists f, fq st axis = Ok f /\ frequencies n (fun k => f [k]).
Proof. exact fq_1. Qed.
Print Assumptions C146_frequencies_1d.

Theorem C146_frequencies_2d : forall st n m, fst_shape st = [n; m] -> size n -> size m ->
  exists f g, fq st (Some 0%Z) = Ok f /\ fq st (Some 1%Z) = Ok g /\
    (forall j, frequencies n (fun i => f [i; j])) /\ (forall i, frequencies m (fun j => g [i; j])).
Proof. exact fq_2. Qed.
Print Assumptions C146_frequencies_2d.

(** In one dimension [qnorm] holds the doubles of [q] that are not negative. *)
Theorem C146_qnorm_1d : forall st n, fst_shape st = [n] -> size n ->
  exists e f q, fqnorm st = Ok ([e], f) /\ fq st None = Ok q /\ (forall k, (0 <= k)%Z -> (k < e <-> 2 * k < n)%Z) /\
    forall k, (0 <= k < e)%Z -> f [k] = q [k].
Proof. exact fqnorm_1. Qed.
Print Assumptions C146_qnorm_1d.

(** In two, the norms are correct up to 2^-50 and do not decrease along rows and columns.  On the
    axes they are the frequencies themselves: the root of the square is exact. *)
Theorem C146_qnorm_2d : forall st n m, fst_shape st = [n; m] -> size n -> size m ->
  exists e e' p f g, fqnorm st = Ok ([e; e'], p) /\ fq st (Some 0%Z) = Ok f /\ fq st (Some 1%Z) = Ok g /\
    (forall k, (0 <= k)%Z -> (k < e <-> 2 * k < n)%Z) /\ (forall k, (0 <= k)%Z -> (k < e' <-> 2 * k < m)%Z) /\
    norms n m e e' (fun i j => p [i; j]) /\
    (forall i, (0 <= i < e)%Z -> B2R (p [i; 0%Z]) = B2R (f [i; 0%Z])) /\
    (forall j, (0 <= j < e')%Z -> B2R (p [0%Z; j]) = B2R (g [0%Z; j])) /\
    (n = m -> forall i j, (0 <= i < e)%Z -> (0 <= j < e)%Z -> B2R (p [i; j]) = B2R (p [j; i])).
Proof. exact fqnorm_2. Qed.
Print Assumptions C146_qnorm_2d.

(** The frequencies are not all the doubles nearest to k/n, the last one need not be -1/2, ... *)
Theorem C146_nearest_refuted : exists st f, fallocate [10%Z] = Ok st /\ fq st None = Ok f /\
  f [3%Z] <> ddiv (dz 3) (dz 10).
Proof. exact not_nearest. Qed.
Print Assumptions C146_nearest_refuted.

Theorem C146_half_refuted : exists st f, fallocate [98%Z] = Ok st /\ fq st None = Ok f /\ wave 98 49 = - / 2 /\
  - / 2 < B2R (f [49%Z]).
Proof. exact not_half. Qed.
Print Assumptions C146_half_refuted.

(** ... and equal norms need not be equal doubles: averaging over [numpy.unique(qnorm)] splits rings. *)
Theorem C146_equal_norms_refuted : exists st e e' p, fallocate [11%Z; 11%Z] = Ok st /\ fqnorm st = Ok ([e; e'], p) /\
  (5 < e)%Z /\ (5 < e')%Z /\
  wave 11 3 ^ 2 + wave 11 4 ^ 2 = wave 11 5 ^ 2 + wave 11 0 ^ 2 /\ B2R (p [3%Z; 4%Z]) <> B2R (p [5%Z; 0%Z]).
Proof. exact not_grouped. Qed.
Print Assumptions C146_equal_norms_refuted.

Example C146_case : size 98 /\ exists st, fallocate [98%Z; 10%Z] = Ok st /\ fst_shape st = [98%Z; 10%Z].
Proof. split; [split; discriminate|]. eexists. split; reflexivity. Qed.
