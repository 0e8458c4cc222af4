(** * Properties_Int: C126

    Statements only; each is closed by a lemma proved elsewhere.  [ipath] and [idummy_circles]
    are [path] and [dummy_circles] with every operation on [int]s checked: a result that does
    not fit is undefined ([UB]). *)

From Coq Require Import ZArith QArith List Bool Lia.
From Verif Require Import Base Path SpecPath Circles Double PathFloat CirclesFloat SpecCirclesFloat CirclesFloatProofs
  IntArith SpecInt IntProofs PathFull IntCircles.
Import ListNotations.
Open Scope Z_scope.

(** ** Paths: [Bresenham] does not overflow if no two coordinates are 2^30 or more apart ... *)
Theorem C126_bresenham_partial : forall fuel x0 x1,
  (1 <= length x0 <= 3)%nat -> length x1 = length x0 -> x0 <> x1 ->
  Forall is_int x0 -> Forall is_int x1 -> span x0 x1 < 2 ^ 30 -> (Z.to_nat (span x0 x1) < fuel)%nat ->
  exists rows, ipath fuel x0 x1 Bresenham = Ok rows /\ path fuel x0 x1 Bresenham = Ok rows /\
    path_between (some_closer x1) x0 x1 rows.
Proof. exact ibresenham_exact. Qed.
Print Assumptions C126_bresenham_partial.

(** ... and does in all other cases. *)
Theorem C126_bresenham_refuted : forall fuel x0 x1, (1 <= length x0 <= 3)%nat -> length x1 = length x0 ->
  Forall is_int x0 -> Forall is_int x1 -> 2 ^ 30 <= span x0 x1 -> ipath fuel x0 x1 Bresenham = UB.
Proof. exact ibresenham_far. Qed.
Print Assumptions C126_bresenham_refuted.

(** The other modes: a path is returned if and only if its coordinates and the number of its
    pixels are [int]s. *)
Theorem C126_lines : forall fuel x0 x1 mode rows, mode = actual \/ mode = full -> Forall is_int x0 ->
  ipath fuel x0 x1 mode = Ok rows <->
  fpath fuel x0 x1 mode = Ok rows /\ Forall (Forall is_int) rows /\ lenZ rows < 2 ^ 31.
Proof. exact iline_iff. Qed.
Print Assumptions C126_lines.

(** So nothing overflows in the case of C83. *)
Theorem C126_lines_exact : forall fuel x0 x1 mode, mode = actual \/ mode = full ->
  (1 <= length x0 <= 3)%nat -> length x1 = length x0 -> x0 <> x1 ->
  span x0 x1 <= 707 -> through_origin x0 x1 -> Forall (fun c => Z.abs c <= 4096) x0 ->
  (Z.to_nat (manhattan x0 x1) <= fuel)%nat ->
  exists rows, ipath fuel x0 x1 mode = Ok rows /\ path fuel x0 x1 mode = Ok rows.
Proof. exact iline_exact. Qed.
Print Assumptions C126_lines_exact.

(** No input makes [Bresenham] or [actual] run for more than 2^31 turns without overflow: a
    loop that would not end (C29, C31) overflows. *)
Theorem C126_ends : forall fuel x0 x1 mode, mode = Bresenham \/ mode = actual -> 2 ^ 31 <= Z.of_nat fuel ->
  ipath fuel x0 x1 mode <> NoFuel.
Proof. exact ipath_ends. Qed.
Print Assumptions C126_ends.

(** Nor does any input in the mode [full]: every turn crosses into at least one pixel. *)
Theorem C126_all_end : forall fuel x0 x1 mode, Forall is_int x0 -> 2 ^ 31 <= Z.of_nat fuel ->
  ipath fuel x0 x1 mode <> NoFuel.
Proof. exact ipath_ends_all. Qed.
Print Assumptions C126_all_end.

Example C126_case_path :
  ipath 10 [2 ^ 31 - 4; 1] [2 ^ 31 - 1; 2] Bresenham =
    Ok [[2147483644; 1]; [2147483645; 1]; [2147483646; 2]; [2147483647; 2]] /\
  ipath 10 [0] [2 ^ 30] Bresenham = UB /\
  ipath 10 [0;0] [2;1] actual = Ok [[0;0]; [1;0]; [1;1]; [2;1]] /\
  ipath 10 [0;0] [2;1] full = Ok [[0;0]; [1;0]; [1;1]; [2;1]].
Proof. split; [vm_compute; reflexivity|]. split; [vm_compute; reflexivity|]. split; vm_compute; reflexivity. Qed.

(** ** Circles: nothing overflows if the boxes around the circles have [int] coordinates ... *)
Theorem C126_circles_partial : forall root asrt n m row col r per, accurate root ->
  lenZ col = lenZ row -> lenZ r = lenZ row ->
  (forall k, 0 <= k < lenZ row -> int_circle (zn row k) (zn col k) (zn r k)) ->
  idummy_circles root asrt [n; m] row col r per = dummy_circles asrt [n; m] row col r per.
Proof. exact icircles_exact. Qed.
Print Assumptions C126_circles_partial.

(** ... and, if the image is not periodic, something does otherwise. *)
Theorem C126_circles_refuted : forall root asrt n m row col r k, lenZ col = lenZ row -> lenZ r = lenZ row ->
  0 <= k < lenZ row -> 0 <= zn r k ->
  ~ (is_int (zn row k - zn r k) /\ is_int (zn row k + zn r k) /\ is_int (zn col k - zn r k) /\ is_int (zn col k + zn r k)) ->
  idummy_circles root asrt [n; m] row col r false = UB.
Proof. exact icircles_UB. Qed.
Print Assumptions C126_circles_refuted.

(** A circle of one pixel, at the last row there is: painted, or undefined. *)
Example C126_case_circles :
  int_circle 2 3 2 /\ idummy_circles dsqrt true [4; 5] [2] [3] [2] false = dummy_circles true [4; 5] [2] [3] [2] false /\
  idummy_circles dsqrt true [2; 2] [2 ^ 31 - 1] [0] [1] true = Ok [0; 0; 1; 0] /\
  idummy_circles dsqrt true [2; 2] [2 ^ 31 - 1] [0] [1] false = UB.
Proof.
  split; [unfold int_circle, is_int; lia|]. split; [vm_compute; reflexivity|]. split; vm_compute; reflexivity.
Qed.
