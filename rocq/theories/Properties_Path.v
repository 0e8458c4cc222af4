(** * Properties_Path: C27 - C31, C56

    Statements only; each is closed by a lemma proved elsewhere.  [fuel] bounds the number of
    turns of the endless loops of the code; [NoFuel] is the outcome "still running". *)

From Coq Require Import ZArith QArith List Bool Lia.
From Verif Require Import Base Path SpecPath PathProofs LineProofs LineGeom PathTop.
Import ListNotations.
Open Scope Z_scope.

(** ** C27: the number of turns is at most the number of rows, the coordinate differences
    are such that twice their value is an [int] *)
Theorem C27_bresenham_connects : forall fuel x0 x1,
  (1 <= length x0 <= 3)%nat -> length x1 = length x0 -> x0 <> x1 ->
  span x0 x1 < 2 ^ 30 -> (Z.to_nat (span x0 x1) < fuel)%nat ->
  exists rows, path fuel x0 x1 Bresenham = Ok rows /\
    path_between (some_closer x1) x0 x1 rows /\ lenZ rows = span x0 x1 + 1.
Proof. exact bresenham_connected. Qed.
Print Assumptions C27_bresenham_connects.

Example C27_case : path 10 [1;5;2] [4;3;2] Bresenham = Ok [[1;5;2]; [2;4;2]; [3;4;2]; [4;3;2]].
Proof. vm_compute. reflexivity. Qed.

Example C27_hyps : (1 <= length [1;5;2]%Z <= 3)%nat /\ [1;5;2] <> [4;3;2] /\ span [1;5;2] [4;3;2] < 2 ^ 30 /\
  (Z.to_nat (span [1;5;2]%Z [4;3;2]%Z) < 10)%nat.
Proof. split; [simpl; lia|]. split; [discriminate|]. split; [vm_compute; reflexivity|simpl; lia]. Qed.

(** ** C28: row [k] is within half a pixel of the point at [k / span] of the straight line *)
Theorem C28_bresenham_within_half_a_pixel : forall fuel x0 x1,
  (1 <= length x0 <= 3)%nat -> length x1 = length x0 -> x0 <> x1 ->
  span x0 x1 < 2 ^ 30 -> (Z.to_nat (span x0 x1) < fuel)%nat ->
  exists rows, path fuel x0 x1 Bresenham = Ok rows /\
    forall k, 0 <= k <= span x0 x1 ->
      touches x0 x1 (inject_Z k / inject_Z (span x0 x1)) (nth (Z.to_nat k) rows []).
Proof. exact bresenham_half. Qed.
Print Assumptions C28_bresenham_within_half_a_pixel.

Example C28_case : path 10 [0;0] [7;3] Bresenham =
  Ok [[0;0]; [1;0]; [2;1]; [3;1]; [4;2]; [5;2]; [6;3]; [7;3]].
Proof. vm_compute. reflexivity. Qed.

(** ** C29: true for [Bresenham] in three dimensions (and for the origin in one dimension) ... *)
Theorem C29_same_point_bresenham_partial : forall fuel,
  (forall a b c, path (S fuel) [a; b; c] [a; b; c] Bresenham = Ok [[a; b; c]]) /\
  path (S fuel) [0] [0] Bresenham = Ok [[0]].
Proof.
  intros fuel. split; [exact (bres_same_3 fuel)|exact (bres_same_1_0 fuel)].
Qed.
Print Assumptions C29_same_point_bresenham_partial.

(** ... and false otherwise: in one dimension it runs forever for every other pixel, in two
    dimensions it reads beyond the coordinates, the other modes read an uninitialised
    value in any number of dimensions. *)
Theorem C29_same_point_refuted : forall fuel,
  (forall a, a <> 0 -> path fuel [a] [a] Bresenham = NoFuel) /\
  (forall a b, path (S fuel) [a; b] [a; b] Bresenham = UB) /\
  (forall x, (length x <= 3)%nat -> path (S fuel) x x actual = UB /\ path (S fuel) x x full = UB).
Proof.
  intros fuel. split; [exact (fun a => bres_same_1 fuel a)|]. split; [exact (bres_same_2 fuel)|].
  intros x HL. split; [exact (line_same false fuel x HL)|exact (line_same true fuel x HL)].
Qed.
Print Assumptions C29_same_point_refuted.

(** ** C30: for the origin, and every other pair of pixels whose connecting line passes
    through the origin *)
Theorem C30_actual_reaches_target : forall fuel x0 x1,
  (1 <= length x0 <= 3)%nat -> length x1 = length x0 -> x0 <> x1 ->
  span x0 x1 <= 1000000 -> through_origin x0 x1 -> (Z.to_nat (manhattan x0 x1) <= fuel)%nat ->
  exists rows, path fuel x0 x1 actual = Ok rows /\ path_between (some_closer x1) x0 x1 rows.
Proof. exact actual_from_origin. Qed.
Print Assumptions C30_actual_reaches_target.

Theorem C30_full_reaches_target : forall fuel x0 x1,
  (1 <= length x0 <= 3)%nat -> length x1 = length x0 -> x0 <> x1 ->
  span x0 x1 <= 1000000 -> through_origin x0 x1 -> (Z.to_nat (manhattan x0 x1) <= fuel)%nat ->
  exists rows, path fuel x0 x1 full = Ok rows /\ path_between (one_closer x1) x0 x1 rows /\
    lenZ rows = manhattan x0 x1 + 1.
Proof. exact full_from_origin. Qed.
Print Assumptions C30_full_reaches_target.

(** The origin is such a starting point. *)
Theorem C30_origin : forall x1 n, n = length x1 -> through_origin (repeat 0 n) x1.
Proof. exact through_origin_zero. Qed.
Print Assumptions C30_origin.

Example C30_case :
  path 10 [0;0] [4;2] actual = Ok [[0;0]; [1;0]; [1;1]; [2;1]; [3;1]; [3;2]; [4;2]] /\
  path 10 [0;0] [2;2] actual = Ok [[0;0]; [1;1]; [2;2]] /\
  path 10 [0;0] [2;2] full = Ok [[0;0]; [1;0]; [1;1]; [2;1]; [2;2]].
Proof. split; [vm_compute; reflexivity|]. split; vm_compute; reflexivity. Qed.

(** ** C31: true for [Bresenham] ... *)
Theorem C31_bresenham_translation_partial : forall fuel x0 x1,
  (1 <= length x0 <= 3)%nat -> length x1 = length x0 -> x0 <> x1 ->
  span x0 x1 < 2 ^ 30 -> (Z.to_nat (span x0 x1) < fuel)%nat ->
  exists rows, path fuel (repeat 0 (length x0)) (diff x1 x0) Bresenham = Ok rows /\
    path fuel x0 x1 Bresenham = Ok (map (fun r => shift r x0) rows).
Proof. exact bresenham_shift. Qed.
Print Assumptions C31_bresenham_translation_partial.

(** ... for the other modes true along lines through the origin ... *)
Theorem C31_line_translation_partial : forall fuel x0 x1 mode, mode = actual \/ mode = full ->
  (1 <= length x0 <= 3)%nat -> length x1 = length x0 -> x0 <> x1 ->
  span x0 x1 <= 1000000 -> through_origin x0 x1 -> (Z.to_nat (manhattan x0 x1) <= fuel)%nat ->
  exists rows, path fuel (repeat 0 (length x0)) (diff x1 x0) mode = Ok rows /\
    path fuel x0 x1 mode = Ok (map (fun r => shift r x0) rows).
Proof.
  intros fuel x0 x1 mode [-> | ->]; [exact (line_shift false fuel x0 x1)|exact (line_shift true fuel x0 x1)].
Qed.
Print Assumptions C31_line_translation_partial.

Example C31_case :
  path 10 [3;4] [5;5] Bresenham = Ok [[3;4]; [4;5]; [5;5]] /\
  path 10 [0;0] [2;1] Bresenham = Ok [[0;0]; [1;1]; [2;1]] /\
  path 10 [3;4] [3;6] actual = Ok [[3;4]; [3;5]; [3;6]] /\
  path 10 [2;2] [4;4] full = Ok [[2;2]; [3;2]; [3;3]; [4;3]; [4;4]].
Proof. split; [|split; [|split]]; vm_compute; reflexivity. Qed.

Example C31_hyps : through_origin [2;2] [4;4] /\ through_origin [3;4] [3;6].
Proof.
  split; [exists 1%Q; repeat constructor; intros; reflexivity|].
  exists 2%Q. constructor; [congruence|]. constructor; [intros; reflexivity|constructor].
Qed.

(** ... and false in general: the path from [5;0] to [8;3] never ends, the one from the
    origin does. *)
Theorem C31_line_translation_refuted :
  exists x0 x1 rows, length x0 = 2%nat /\ length x1 = 2%nat /\ x0 <> x1 /\
    path 10 (repeat 0 2) (diff x1 x0) actual = Ok rows /\
    forall fuel, path fuel x0 x1 actual = NoFuel /\ path fuel x0 x1 full = NoFuel.
Proof.
  exists [5;0], [8;3], [[0;0]; [1;1]; [2;2]; [3;3]]. split; [reflexivity|]. split; [reflexivity|].
  split; [discriminate|]. split; [vm_compute; reflexivity|]. exact path_5_0_8_3.
Qed.
Print Assumptions C31_line_translation_refuted.

(** ** C56: the pixels of [actual] and [full] are those met by the line (up to corners and
    edges), for distances up to 707 pixels *)
Theorem C56_pixels_on_the_line : forall fuel x0 x1 mode, mode = actual \/ mode = full ->
  (1 <= length x0 <= 3)%nat -> length x1 = length x0 -> x0 <> x1 ->
  span x0 x1 <= 707 -> through_origin x0 x1 -> (Z.to_nat (manhattan x0 x1) <= fuel)%nat ->
  exists rows, path fuel x0 x1 mode = Ok rows /\
    (forall r, In r rows -> exists t, (0 <= t <= 1)%Q /\ touches x0 x1 t r) /\
    (forall t c, (0 <= t <= 1)%Q -> pierces x0 x1 t c -> In c rows).
Proof.
  intros fuel x0 x1 mode [-> | ->]; [exact (line_pixels false fuel x0 x1)|exact (line_pixels true fuel x0 x1)].
Qed.
Print Assumptions C56_pixels_on_the_line.

Example C56_case :
  path 10 [0;0] [3;2] actual = Ok [[0;0]; [1;0]; [1;1]; [2;1]; [2;2]; [3;2]] /\
  pierces [0;0] [3;2] (1 # 5) [1;0] /\ touches [0;0] [3;2] (1 # 2) [1;1].
Proof.
  split; [vm_compute; reflexivity|]. split; vm_compute; repeat split; discriminate.
Qed.
