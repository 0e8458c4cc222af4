(** * Properties_PathFloat: C83, C84

    Statements only; each is closed by a lemma proved elsewhere.  [fpath] is [path] with every
    operation on [double]s rounded. *)

From Coq Require Import ZArith QArith List Bool Lia.
From Verif Require Import Base Path SpecPath PathTop Double PathFloat PathFloatProofs PathFloatTop PathTolerance.
Import ListNotations.
Open Scope Z_scope.

(** ** C83: rounding does not change the paths, for lines through the origin, up to 707 pixels
    apart and starting at most 4096 pixels from the origin *)
Theorem C83_rounding_is_immaterial : forall fuel x0 x1 mode,
  (1 <= length x0 <= 3)%nat -> length x1 = length x0 -> span x0 x1 <= 707 ->
  through_origin x0 x1 -> Forall (fun c => Z.abs c <= 4096) x0 ->
  fpath fuel x0 x1 mode = path fuel x0 x1 mode.
Proof. exact fpath_eq. Qed.
Print Assumptions C83_rounding_is_immaterial.

(** So C30 and C56 hold of what the machine computes. *)
Theorem C83_actual_reaches_target : forall fuel x0 x1,
  (1 <= length x0 <= 3)%nat -> length x1 = length x0 -> x0 <> x1 ->
  span x0 x1 <= 707 -> through_origin x0 x1 -> Forall (fun c => Z.abs c <= 4096) x0 ->
  (Z.to_nat (manhattan x0 x1) <= fuel)%nat ->
  exists rows, fpath fuel x0 x1 actual = Ok rows /\ path_between (some_closer x1) x0 x1 rows.
Proof. exact factual_reaches. Qed.
Print Assumptions C83_actual_reaches_target.

Theorem C83_full_reaches_target : forall fuel x0 x1,
  (1 <= length x0 <= 3)%nat -> length x1 = length x0 -> x0 <> x1 ->
  span x0 x1 <= 707 -> through_origin x0 x1 -> Forall (fun c => Z.abs c <= 4096) x0 ->
  (Z.to_nat (manhattan x0 x1) <= fuel)%nat ->
  exists rows, fpath fuel x0 x1 full = Ok rows /\ path_between (one_closer x1) x0 x1 rows /\
    lenZ rows = manhattan x0 x1 + 1.
Proof. exact ffull_reaches. Qed.
Print Assumptions C83_full_reaches_target.

Theorem C83_pixels_on_the_line : forall fuel x0 x1 mode, mode = actual \/ mode = full ->
  (1 <= length x0 <= 3)%nat -> length x1 = length x0 -> x0 <> x1 ->
  span x0 x1 <= 707 -> through_origin x0 x1 -> Forall (fun c => Z.abs c <= 4096) x0 ->
  (Z.to_nat (manhattan x0 x1) <= fuel)%nat ->
  exists rows, fpath fuel x0 x1 mode = Ok rows /\
    (forall r, In r rows -> exists t, (0 <= t <= 1)%Q /\ touches x0 x1 t r) /\
    (forall t c, (0 <= t <= 1)%Q -> pierces x0 x1 t c -> In c rows).
Proof. exact fpixels. Qed.
Print Assumptions C83_pixels_on_the_line.

(** 1/14 and 3/14 are not [double]s. *)
Example C83_case :
  fpath 10 [0;0] [7;3] actual = Ok [[0;0]; [1;0]; [1;1]; [2;1]; [3;1]; [4;2]; [5;2]; [6;2]; [6;3]; [7;3]] /\
  fpath 10 [7;0;3] [-7;0;-3] full = path 10 [7;0;3] [-7;0;-3] full /\
  fpath 10 [-3;5;-9] [0;5;0] actual = Ok [[-3;5;-9]; [-3;5;-8]; [-2;5;-7]; [-2;5;-6]; [-2;5;-5]; [-1;5;-4]; [-1;5;-3]; [-1;5;-2]; [0;5;-1]; [0;5;0]].
Proof. split; [vm_compute; reflexivity|]. split; vm_compute; reflexivity. Qed.

Example C83_hyps : through_origin [-3;5;-9] [0;5;0] /\ span [-3;5;-9] [0;5;0] <= 707 /\ Forall (fun c => Z.abs c <= 4096) [-3;5;-9].
Proof.
  split; [|split; [vm_compute; discriminate|repeat constructor; vm_compute; discriminate]].
  exists (-(1))%Q. constructor; [intros; reflexivity|]. constructor; [congruence|]. constructor; [intros; reflexivity|constructor].
Qed.

(** ** C84: C56 without a bound on the distance fails at 708 pixels: crossings less than 1e-6
    apart are taken for one, in exact arithmetic and in [double]s.  [actual] skips a pixel
    whose inside the line meets ... *)
Theorem C84_actual_skips_refuted : exists x0 x1 t c,
  span x0 x1 = 708 /\ through_origin x0 x1 /\ (0 <= t <= 1)%Q /\ pierces x0 x1 t c /\
  (forall fuel rows, path fuel x0 x1 actual = Ok rows -> ~ In c rows) /\
  (exists rows, path 1415 x0 x1 actual = Ok rows) /\
  (exists rows, fpath 1415 x0 x1 actual = Ok rows /\ ~ In c rows).
Proof. exact actual_skips_ex. Qed.
Print Assumptions C84_actual_skips_refuted.

(** ... and [full] visits a pixel that the line does not meet. *)
Theorem C84_full_strays_refuted : exists x0 x1 c,
  span x0 x1 = 708 /\ through_origin x0 x1 /\ (forall t, ~ touches x0 x1 t c) /\
  (forall fuel rows, path fuel x0 x1 full = Ok rows -> In c rows) /\
  (exists rows, path 1415 x0 x1 full = Ok rows) /\
  (exists rows, fpath 1415 x0 x1 full = Ok rows /\ In c rows).
Proof. exact full_strays_ex. Qed.
Print Assumptions C84_full_strays_refuted.

(** Up to 707 pixels neither happens (C56). *)
Theorem C84_pixels_on_the_line_partial : forall fuel x0 x1 mode, mode = actual \/ mode = full ->
  (1 <= length x0 <= 3)%nat -> length x1 = length x0 -> x0 <> x1 ->
  span x0 x1 <= 707 -> through_origin x0 x1 -> (Z.to_nat (manhattan x0 x1) <= fuel)%nat ->
  exists rows, path fuel x0 x1 mode = Ok rows /\
    (forall r, In r rows -> exists t, (0 <= t <= 1)%Q /\ touches x0 x1 t r) /\
    (forall t c, (0 <= t <= 1)%Q -> pierces x0 x1 t c -> In c rows).
Proof. exact pixels_on_the_line. Qed.
Print Assumptions C84_pixels_on_the_line_partial.
