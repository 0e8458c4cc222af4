(** * PathFloatTop: C83, C84 (proofs only) *)

From Coq Require Import ZArith QArith List Bool Lia.
From Verif Require Import Base BaseLemmas Path SpecPath PathProofs LineProofs LineGeom PathTop Double PathFloat PathFloatProofs PathTolerance.
Import ListNotations.
Open Scope Z_scope.

Lemma factual_reaches : forall fuel x0 x1,
  (1 <= length x0 <= 3)%nat -> length x1 = length x0 -> x0 <> x1 ->
  span x0 x1 <= 707 -> through_origin x0 x1 -> Forall (fun c => Z.abs c <= 4096) x0 ->
  (Z.to_nat (manhattan x0 x1) <= fuel)%nat ->
  exists rows, fpath fuel x0 x1 actual = Ok rows /\ path_between (some_closer x1) x0 x1 rows.
Proof. intros. rewrite fpath_eq by assumption. apply actual_from_origin; auto. lia. Qed.

Lemma ffull_reaches : forall fuel x0 x1,
  (1 <= length x0 <= 3)%nat -> length x1 = length x0 -> x0 <> x1 ->
  span x0 x1 <= 707 -> through_origin x0 x1 -> Forall (fun c => Z.abs c <= 4096) x0 ->
  (Z.to_nat (manhattan x0 x1) <= fuel)%nat ->
  exists rows, fpath fuel x0 x1 full = Ok rows /\ path_between (one_closer x1) x0 x1 rows /\
    lenZ rows = manhattan x0 x1 + 1.
Proof. intros. rewrite fpath_eq by assumption. apply full_from_origin; auto. lia. Qed.

Lemma pixels_on_the_line : forall fuel x0 x1 mode, mode = actual \/ mode = full ->
  (1 <= length x0 <= 3)%nat -> length x1 = length x0 -> x0 <> x1 ->
  span x0 x1 <= 707 -> through_origin x0 x1 -> (Z.to_nat (manhattan x0 x1) <= fuel)%nat ->
  exists rows, path fuel x0 x1 mode = Ok rows /\
    (forall r, In r rows -> exists t, (0 <= t <= 1)%Q /\ touches x0 x1 t r) /\
    (forall t c, (0 <= t <= 1)%Q -> pierces x0 x1 t c -> In c rows).
Proof. intros fuel x0 x1 mode [-> | ->]; [exact (line_pixels false fuel x0 x1)|exact (line_pixels true fuel x0 x1)]. Qed.

Lemma fpixels : forall fuel x0 x1 mode, mode = actual \/ mode = full ->
  (1 <= length x0 <= 3)%nat -> length x1 = length x0 -> x0 <> x1 ->
  span x0 x1 <= 707 -> through_origin x0 x1 -> Forall (fun c => Z.abs c <= 4096) x0 ->
  (Z.to_nat (manhattan x0 x1) <= fuel)%nat ->
  exists rows, fpath fuel x0 x1 mode = Ok rows /\
    (forall r, In r rows -> exists t, (0 <= t <= 1)%Q /\ touches x0 x1 t r) /\
    (forall t c, (0 <= t <= 1)%Q -> pierces x0 x1 t c -> In c rows).
Proof. intros. rewrite fpath_eq by assumption. apply pixels_on_the_line; assumption. Qed.

Lemma actual_skips_ex : exists x0 x1 t c,
  span x0 x1 = 708 /\ through_origin x0 x1 /\ (0 <= t <= 1)%Q /\ pierces x0 x1 t c /\
  (forall fuel rows, path fuel x0 x1 actual = Ok rows -> ~ In c rows) /\
  (exists rows, path 1415 x0 x1 actual = Ok rows) /\
  (exists rows, fpath 1415 x0 x1 actual = Ok rows /\ ~ In c rows).
Proof.
  exists [0;0], [708;707], (1 # 1415)%Q, [1;0]. split; [reflexivity|].
  assert (HO : through_origin [0;0] [708;707]) by (apply (through_origin_zero [708;707] 2%nat); reflexivity).
  split; [exact HO|]. split; [split; vm_compute; discriminate|]. split; [exact pierced_1_0|]. split; [exact actual_skips|].
  split; [|exact factual_skips].
  destruct (actual_from_origin 1415 [0;0] [708;707]) as (rows & E & _); [simpl; lia|reflexivity|discriminate|vm_compute; discriminate|exact HO|simpl; lia|eauto].
Qed.

Lemma full_strays_ex : exists x0 x1 c,
  span x0 x1 = 708 /\ through_origin x0 x1 /\ (forall t, ~ touches x0 x1 t c) /\
  (forall fuel rows, path fuel x0 x1 full = Ok rows -> In c rows) /\
  (exists rows, path 1415 x0 x1 full = Ok rows) /\
  (exists rows, fpath 1415 x0 x1 full = Ok rows /\ In c rows).
Proof.
  exists [0;0], [707;708], [1;0]. split; [reflexivity|].
  assert (HO : through_origin [0;0] [707;708]) by (apply (through_origin_zero [707;708] 2%nat); reflexivity).
  split; [exact HO|]. split; [exact untouched_1_0|]. split; [exact full_strays|].
  split; [|exact ffull_strays].
  destruct (full_from_origin 1415 [0;0] [707;708]) as (rows & E & _); [simpl; lia|reflexivity|discriminate|vm_compute; discriminate|exact HO|simpl; lia|eauto].
Qed.
