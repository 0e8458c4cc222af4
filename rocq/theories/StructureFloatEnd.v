(** * StructureFloatEnd: the error of floating point and of integer samples; a case *)

From Coq Require Import ZArith Reals List Bool Lia Lra.
From Flocq Require Import Core BinarySingleNaN.
From Verif Require Import Base Double Structure SpecStructure SpecStructureAll SpecError StructureTop StructureFloat SpecStructureFloat StructureFloatTop StructureFloatLaws.
Import ListNotations.
Open Scope Z_scope.

Lemma float_error1 : forall P A d n start l, product P -> 1 <= n <= 2 ^ 50 -> ffresh_structure [n] start -> l <> [] -> lenZ l <= 2 ^ 50 ->
  (forall s, In s l -> sized1 A d n (fst (fst s)) /\ transform1 d n (fst (fst s)) (snd (fst s))) ->
  exists st, fadd_samples P start (fsamples1 Float n l) = Ok (Some st) /\ fst_shape st = [n] /\
    forall k, 0 <= k < n ->
      (~ nyquist n k -> right_up_to (structure_error A d n (length l))
         (average (fun s => power n (fst (fst s)) k / IZR n) l)%R (fmean st [k])) /\
      (nyquist n k -> fmean st [k] = B754_nan).
Proof.
  intros P A d n start l HP Hn HF HL HN H.
  destruct (ferror1 P Float A d n start l HP Hn HF HL HN ltac:(discriminate) H) as (st & E & SH & M).
  exists st. split; [exact E|]. split; [exact SH|]. intros k Hk. destruct (M k Hk) as [M1 M2]. split; [|exact M2].
  intro Q. specialize (M1 Q). unfold extra in M1. replace (structure_error A d n (length l) + 0 / IZR n)%R with (structure_error A d n (length l)) in M1 by (unfold Rdiv; ring). exact M1.
Qed.

Lemma float_error2 : forall P A d n m start l, product P -> 1 <= n -> 1 <= m -> n * m <= 2 ^ 50 -> n mod 2 = m mod 2 ->
  ffresh_structure [n; m] start -> l <> [] -> lenZ l <= 2 ^ 50 ->
  (forall s, In s l -> sized2 A d n m (fst (fst s)) /\ transform2 d n m (fst (fst s)) (snd (fst s))) ->
  exists st, fadd_samples P start (fsamples2 Float n m l) = Ok (Some st) /\ fst_shape st = [n; m] /\
    forall i j, 0 <= i < n -> 0 <= j < m ->
      (2 * i < n /\ 2 * j < m \/ n < 2 * i /\ m < 2 * j -> right_up_to (structure_error A d (n * m) (length l))
         (average (fun s => power2 n m (fst (fst s)) i j / IZR (n * m)) l)%R (fmean st [i; j])) /\
      (nyquist n i \/ nyquist m j -> fmean st [i; j] = B754_nan).
Proof.
  intros P A d n m start l HP Hn Hm Hs HE HF HL HN H.
  destruct (ferror2 P Float A d n m start l HP Hn Hm Hs HE HF HL HN ltac:(discriminate) H) as (st & E & SH & M).
  exists st. split; [exact E|]. split; [exact SH|]. intros i j Hi Hj. destruct (M i j Hi Hj) as [M1 M2]. split; [|exact M2].
  intro Q. specialize (M1 Q). unfold extra in M1. replace (structure_error A d (n * m) (length l) + 0 / IZR (n * m))%R with (structure_error A d (n * m) (length l)) in M1 by (unfold Rdiv; ring). exact M1.
Qed.

Lemma integer_error1 : forall P A d n start l, product P -> 1 <= n <= 2 ^ 50 -> ffresh_structure [n] start -> l <> [] -> lenZ l <= 2 ^ 50 ->
  (1 <= A /\ A ^ 2 <= IZR (2 ^ 49))%R ->
  (forall s, In s l -> sized1 A d n (fst (fst s)) /\ transform1 d n (fst (fst s)) (snd (fst s))) ->
  exists st, fadd_samples P start (fsamples1 Integer n l) = Ok (Some st) /\
    forall k, 0 <= k < n -> ~ nyquist n k -> right_up_to (structure_error A d n (length l) + 1 / IZR n)
      (average (fun s => power n (fst (fst s)) k / IZR n) l)%R (fmean st [k]).
Proof.
  intros P A d n start l HP Hn HF HL HN HA H.
  destruct (ferror1 P Integer A d n start l HP Hn HF HL HN (fun _ => HA) H) as (st & E & SH & M).
  exists st. split; [exact E|]. intros k Hk Q. exact (proj1 (M k Hk) Q).
Qed.

Lemma float_case : product plain_product /\ sized1 2 (bpow radix2 (-53)) 3 one_point /\
  transform1 (bpow radix2 (-53)) 3 one_point its_transform /\ conjugates1 3 its_transform /\
  (structure_error 2 (bpow radix2 (-53)) 3 1 <= bpow radix2 (-45))%R /\
  exists st, fadd_samples plain_product None (fsamples1 Float 3 [((one_point, its_transform), fun _ => dzero)]) = Ok (Some st) /\
    right_up_to (bpow radix2 (-45)) (/ 3)%R (fmean st [1]) /\ fmean st [2] = fmean st [1].
Proof.
  split; [apply plain_is_product|]. split; [apply one_point_sized|]. split; [apply its_transform_close|]. split; [apply its_transform_conjugates|].
  assert (B : (structure_error 2 (bpow radix2 (-53)) 3 1 <= bpow radix2 (-45))%R).
  { unfold structure_error, unit. change (bpow radix2 (-53)) with (/ 9007199254740992)%R. change (bpow radix2 (-52)) with (/ 4503599627370496)%R.
    change (bpow radix2 (-45)) with (/ 35184372088832)%R. cbn [INR]. lra. }
  split; [exact B|].
  destruct (float_error1 plain_product 2 (bpow radix2 (-53)) 3 None [((one_point, its_transform), fun _ => dzero)] plain_is_product ltac:(lia) (or_introl eq_refl) ltac:(discriminate) ltac:(unfold lenZ; cbn; lia)) as (st & E & _ & M).
  { intros s [<-|[]]. cbn [fst snd]. split; [apply one_point_sized|apply its_transform_close]. }
  destruct (feven1 plain_product Float 3 None [((one_point, its_transform), fun _ => dzero)] ltac:(lia) (or_introl eq_refl) ltac:(discriminate)) as (st' & E' & M').
  rewrite E in E'. injection E' as <-. exists st. split; [exact E|]. split.
  - destruct (M 1 ltac:(lia)) as [M1 _]. destruct (M1 ltac:(unfold nyquist; lia)) as [F V]. split; [exact F|].
    rewrite average_one in V. cbn [fst length] in V. rewrite one_point_power in V. replace (1 / IZR 3)%R with (/ 3)%R in V by lra.
    apply Rle_trans with (1 := V). exact B.
  - apply (M' 1). lia.
Qed.
