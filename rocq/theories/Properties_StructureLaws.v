(** * Properties_StructureLaws: C128

    [backwards], [affine], [transposed] ... relate samples (SpecSpectrum.v); [mean st [k]] is the
    entry of frequency [k] of [mean()], [None] for NaN; [opposite n k] the index of the opposite
    frequency; a sample is a pair of its data and the uninitialised memory the result is computed
    in. *)

From Coq Require Import ZArith List Bool Reals Lra Lia.
From Verif Require Import Base Structure SpecStructure SpecSpectrum StructureTop StructureLaws.
Import ListNotations.
Open Scope Z_scope.

(** ** C128 Spectra of mirrored, scaled, shifted and transposed samples *)

(** Opposite frequencies have the same value. *)
Theorem C128_even_1d : forall n start l, 1 <= n -> fresh [n] start -> l <> [] ->
  exists st, add_samples start (samples1 n l) = Ok (Some st) /\
    forall k, 0 <= k < n -> mean st [opposite n k] = mean st [k].
Proof. exact even1. Qed.
Print Assumptions C128_even_1d.

(** Samples read backwards. *)
Theorem C128_mirror_1d : forall n l l', 1 <= n -> l <> [] -> Forall2 (fun s s' => backwards n (fst s) (fst s')) l l' ->
  exists st st', add_samples None (samples1 n l) = Ok (Some st) /\ add_samples None (samples1 n l') = Ok (Some st') /\
    forall k, 0 <= k < n -> mean st' [k] = mean st [k].
Proof. exact back1. Qed.
Print Assumptions C128_mirror_1d.

(** Samples multiplied by [c], to each of which a constant of its own is added. *)
Theorem C128_scale_and_offset_1d : forall n c (d : (Z -> R) * (Z -> Z -> R) -> R) l l', 1 <= n -> l <> [] ->
  Forall2 (fun s s' => affine n c (d s') (fst s) (fst s')) l l' ->
  exists st st', add_samples None (samples1 n l) = Ok (Some st) /\ add_samples None (samples1 n l') = Ok (Some st') /\
    forall k, 0 < k < n -> mean st' [k] = option_map (Rmult (c ^ 2)) (mean st [k]).
Proof. exact affine1. Qed.
Print Assumptions C128_scale_and_offset_1d.

(** The entry of frequency zero: the squared sum of the sample. *)
Theorem C128_zero_frequency_1d : forall n start l, 1 <= n -> fresh [n] start -> l <> [] ->
  exists st, add_samples start (samples1 n l) = Ok (Some st) /\
    mean st [0] = Some (average (fun s => sum_below n (fst s) ^ 2 / IZR n)%R l).
Proof. exact zero1. Qed.
Print Assumptions C128_zero_frequency_1d.

(** In two dimensions, for the entries of two frequencies of the same sign. *)
Theorem C128_even_2d_partial : forall n m start l, 1 <= n -> 1 <= m -> n mod 2 = m mod 2 -> fresh [n; m] start -> l <> [] ->
  exists st, add_samples start (samples2 n m l) = Ok (Some st) /\
    forall i j, 0 < i < n -> 0 < j < m -> same_sign n m i j -> mean st [opposite n i; opposite m j] = mean st [i; j].
Proof. exact even2. Qed.
Print Assumptions C128_even_2d_partial.

Theorem C128_mirror_2d_partial : forall n m l l', 1 <= n -> 1 <= m -> n mod 2 = m mod 2 -> l <> [] ->
  Forall2 (fun s s' => backwards2 n m (fst s) (fst s')) l l' ->
  exists st st', add_samples None (samples2 n m l) = Ok (Some st) /\ add_samples None (samples2 n m l') = Ok (Some st') /\
    forall i j, 0 <= i < n -> 0 <= j < m -> same_sign n m i j -> mean st' [i; j] = mean st [i; j].
Proof. exact back2. Qed.
Print Assumptions C128_mirror_2d_partial.

Theorem C128_scale_and_offset_2d_partial : forall n m c (d : (Z -> Z -> R) * (Z -> Z -> R) -> R) l l', 1 <= n -> 1 <= m -> n mod 2 = m mod 2 -> l <> [] ->
  Forall2 (fun s s' => affine2 n m c (d s') (fst s) (fst s')) l l' ->
  exists st st', add_samples None (samples2 n m l) = Ok (Some st) /\ add_samples None (samples2 n m l') = Ok (Some st') /\
    forall i j, 0 <= i < n -> 0 <= j < m -> i <> 0 \/ j <> 0 -> same_sign n m i j ->
      mean st' [i; j] = option_map (Rmult (c ^ 2)) (mean st [i; j]).
Proof. exact affine_2. Qed.
Print Assumptions C128_scale_and_offset_2d_partial.

Theorem C128_transposed_2d_partial : forall n m l l', 1 <= n -> 1 <= m -> n mod 2 = m mod 2 -> l <> [] ->
  Forall2 (fun s s' => transposed n m (fst s) (fst s')) l l' ->
  exists st st', add_samples None (samples2 n m l) = Ok (Some st) /\ add_samples None (samples2 m n l') = Ok (Some st') /\
    forall i j, 0 <= i < n -> 0 <= j < m -> same_sign n m i j -> mean st' [j; i] = mean st [i; j].
Proof. exact transposed2. Qed.
Print Assumptions C128_transposed_2d_partial.

(** A sample flipped along one axis has its power at the flipped frequencies; the entries do not
    show it. *)
Theorem C128_flipped_2d_refuted : exists n m u u' i j, flipped_columns n m u u' /\ 0 < i < n /\ 0 < j < m /\ same_sign n m i j /\
  forall junk, exists st st', add_sample None (Data2 n m u) junk = Ok st /\ add_sample None (Data2 n m u') junk = Ok st' /\
    mean st' [i; j] = Some (/ 16)%R /\ mean st [i; opposite m j] = Some (- / 16)%R.
Proof. exact flipped_refuted. Qed.
Print Assumptions C128_flipped_2d_refuted.

Example C128_case : backwards 3 (fun j => IZR j) (fun j => 2 - IZR j)%R /\ affine 3 (-1) 2 (fun j => IZR j) (fun j => 2 - IZR j)%R /\
  backwards2 3 5 (delta 0 1) (delta 2 3) /\ transposed 3 5 (delta 0 1) (delta 1 0) /\ same_sign 3 5 1 2 /\ same_sign 3 5 2 3 /\
  exists st, add_samples None (samples1 3 [((fun j => IZR j), fun _ _ => 7%R)]) = Ok (Some st) /\ mean st [0] = Some 3%R.
Proof.
  split. { intros j Hj. rewrite !minus_IZR. lra. }
  split. { intros j Hj. lra. }
  split. { intros a b Ha Hb. unfold delta. now replace (3 - 1 - a =? 0) with (a =? 2) by lia; replace (5 - 1 - b =? 1) with (b =? 3) by lia. }
  split. { intros a b Ha Hb. unfold delta. now rewrite andb_comm. }
  split; [left; lia|]. split; [right; lia|].
  destruct (zero1 3 None [((fun j => IZR j), fun _ _ => 7%R)]) as (st & E & M); [lia|now left|discriminate|].
  exists st. split; [exact E|]. rewrite M. f_equal. rewrite average_one. cbn [fst].
  unfold sum_below. change (zrange 0 3) with [0; 1; 2]. cbn [map fold_right]. lra.
Qed.
