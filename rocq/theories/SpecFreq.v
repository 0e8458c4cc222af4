(** * SpecFreq: the exact frequencies *)

From Coq Require Import ZArith Reals.
From Flocq Require Import Core BinarySingleNaN.
From Verif Require Import Base Double Structure SpecStructure.
Open Scope R_scope.

(** The frequency at index [k] of [n]: waves per pixel, from -1/2 up to (not including) 1/2. *)
Definition wave (n k : Z) : R := if (2 * k <? n)%Z then IZR k / IZR n else (IZR k - IZR n) / IZR n.

(** [x] is a finite number equal to [r] up to a fraction [e]. *)
Definition within (e r : R) (x : double) : Prop := is_finite x = true /\ Rabs (B2R x - r) <= e * Rabs r.

(** The sizes considered. *)
Definition size (n : Z) : Prop := (1 <= n <= 2 ^ 51)%Z.

(** What the doubles [f 0 .. f (n-1)] have in common with the exact frequencies: they are within one
    unit in the last place; zero is zero; opposite frequencies are opposite; the order is kept, so
    different frequencies remain different; none exceeds 1/2; they are exact if [n] is a power of two. *)
Definition frequencies (n : Z) (f : Z -> double) : Prop :=
  (forall k, (0 <= k < n)%Z -> within (bpow radix2 (-52)) (wave n k) (f k)) /\
  f 0%Z = B754_zero false /\
  (forall k, (0 <= k < n)%Z -> ~ nyquist n k -> B2R (f (opposite n k)) = - B2R (f k)) /\
  (forall k l, (0 <= k < n)%Z -> (0 <= l < n)%Z -> wave n k < wave n l -> B2R (f k) < B2R (f l)) /\
  (forall k, (0 <= k < n)%Z -> Rabs (B2R (f k)) <= / 2) /\
  (forall e, n = (2 ^ e)%Z -> forall k, (0 <= k < n)%Z -> B2R (f k) = wave n k).

(** What the doubles [p i j], for [i < e] and [j < e'], have in common with the exact norms. *)
Definition norms (n m e e' : Z) (p : Z -> Z -> double) : Prop :=
  (forall i j, (0 <= i < e)%Z -> (0 <= j < e')%Z ->
     within (bpow radix2 (-50)) (sqrt (wave n i ^ 2 + wave m j ^ 2)) (p i j)) /\
  (forall i j i' j', (0 <= i <= i')%Z -> (0 <= j <= j')%Z -> (i' < e)%Z -> (j' < e')%Z -> B2R (p i j) <= B2R (p i' j')).
