(** * Properties_PathSym: C101 (symmetries of the paths), and more of C28 and C56 *)

From Coq Require Import ZArith QArith List Bool Lia Permutation.
From Verif Require Import Base Path SpecPath SpecPathSym PathTop PathSym PathBack.
Import ListNotations.
Open Scope Z_scope.

(** ** C28: the path is determined: row [k] is the pixel nearest to the line, and a point
    halfway between two pixels goes to the one further from the start. *)
Theorem C28_bresenham_nearest : forall fuel x0 x1,
  (1 <= length x0 <= 3)%nat -> length x1 = length x0 -> x0 <> x1 ->
  span x0 x1 < 2 ^ 30 -> (Z.to_nat (span x0 x1) < fuel)%nat ->
  exists rows, path fuel x0 x1 Bresenham = Ok rows /\
    forall k i, (k <= Z.to_nat (span x0 x1))%nat -> (i < length x0)%nat ->
      exists m, nth i (nth k rows []) 0 = nth i x0 0 + Z.sgn (nth i x1 0 - nth i x0 0) * m /\
        - span x0 x1 < 2 * span x0 x1 * m - 2 * Z.of_nat k * Z.abs (nth i x1 0 - nth i x0 0) <= span x0 x1.
Proof. exact bres_nearest. Qed.
Print Assumptions C28_bresenham_nearest.

Example C28_nearest_case : path 10 [0;0] [2;-1] Bresenham = Ok [[0;0]; [1;-1]; [2;-1]] /\ span [0;0] [2;-1] = 2.
Proof. split; [vm_compute; reflexivity|reflexivity]. Qed.

(** ** C56: [actual] visits exactly the pixels whose inside the line meets, each once, and in
    the order in which the line meets them. *)
Theorem C56_actual_in_order : forall fuel x0 x1,
  (1 <= length x0 <= 3)%nat -> length x1 = length x0 -> x0 <> x1 ->
  span x0 x1 <= 707 -> through_origin x0 x1 -> (Z.to_nat (manhattan x0 x1) <= fuel)%nat ->
  exists rows, path fuel x0 x1 actual = Ok rows /\ NoDup rows /\
    (forall c, In c rows <-> exists t, (0 <= t <= 1)%Q /\ pierces x0 x1 t c) /\
    exists ts, increasing 0 ts /\ Forall2 (fun t r => pierces x0 x1 t r) ts rows.
Proof. exact actual_in_order. Qed.
Print Assumptions C56_actual_in_order.

Example C56_order_case : path 10 [2;1] [-2;-1] actual =
  Ok [[2;1]; [1;1]; [1;0]; [0;0]; [-1;0]; [-1;-1]; [-2;-1]] /\ through_origin [2;1] [-2;-1].
Proof.
  split; [vm_compute; reflexivity|]. exists (- (1 # 2))%Q. constructor; [intros _; vm_compute; reflexivity|].
  constructor; [intros _; vm_compute; reflexivity|constructor].
Qed.

(** ** C101: mirroring axes mirrors the path, in every mode ... *)
Theorem C101_mirrored_partial : forall fuel s x0 x1 mode,
  (1 <= length x0 <= 3)%nat -> length x1 = length x0 -> x0 <> x1 ->
  span x0 x1 < 2 ^ 30 -> (Z.to_nat (span x0 x1) < fuel)%nat -> signs s -> length s = length x0 ->
  path fuel (mirror s x0) (mirror s x1) mode = each (mirror s) (path fuel x0 x1 mode).
Proof. exact path_mirror. Qed.
Print Assumptions C101_mirrored_partial.

(** ... interchanging axes interchanges those of the path, for [Bresenham] and [actual] ... *)
Theorem C101_axes_partial : forall fuel p x0 x1 mode, mode = Bresenham \/ mode = actual ->
  (1 <= length x0 <= 3)%nat -> length x1 = length x0 -> x0 <> x1 ->
  span x0 x1 < 2 ^ 30 -> (Z.to_nat (span x0 x1) < fuel)%nat -> Permutation p (seq 0 (length x0)) ->
  path fuel (pick p x0) (pick p x1) mode = each (pick p) (path fuel x0 x1 mode).
Proof. exact path_axes. Qed.
Print Assumptions C101_axes_partial.

(** ... and the path back is the reverse: for [Bresenham] if the largest difference of
    coordinates is odd, for [actual] along lines through the origin. *)
Theorem C101_reversed_bresenham_partial : forall fuel x0 x1,
  (1 <= length x0 <= 3)%nat -> length x1 = length x0 -> x0 <> x1 ->
  span x0 x1 < 2 ^ 30 -> Z.odd (span x0 x1) = true -> (Z.to_nat (span x0 x1) < fuel)%nat ->
  exists rows, path fuel x0 x1 Bresenham = Ok rows /\ path fuel x1 x0 Bresenham = Ok (rev rows).
Proof. exact bres_rev. Qed.
Print Assumptions C101_reversed_bresenham_partial.

(** Exactly: no axis may have a point halfway between two pixels, that is, the largest difference
    may not have more factors two than the difference along the axis. *)
Theorem C101_reversed_bresenham_exactly : forall fuel x0 x1,
  (1 <= length x0 <= 3)%nat -> length x1 = length x0 -> x0 <> x1 ->
  span x0 x1 < 2 ^ 30 -> (Z.to_nat (span x0 x1) < fuel)%nat ->
  exists rows rows', path fuel x0 x1 Bresenham = Ok rows /\ path fuel x1 x0 Bresenham = Ok rows' /\
    (rows' = rev rows <->
       forall i, (i < length x0)%nat -> Z.odd (span x0 x1 / Z.gcd (span x0 x1) (nth i x1 0 - nth i x0 0)) = true).
Proof. exact bres_back. Qed.
Print Assumptions C101_reversed_bresenham_exactly.

Example C101_exactly_case : Z.odd (6 / Z.gcd 6 2) = true /\ Z.odd (6 / Z.gcd 6 6) = true /\
  path 10 [0;0] [6;2] Bresenham = Ok [[0;0]; [1;0]; [2;1]; [3;1]; [4;1]; [5;2]; [6;2]] /\
  path 10 [6;2] [0;0] Bresenham = Ok [[6;2]; [5;2]; [4;1]; [3;1]; [2;1]; [1;0]; [0;0]] /\
  Z.odd (2 / Z.gcd 2 1) = false.
Proof. repeat (split; [vm_compute; reflexivity|]). reflexivity. Qed.

Theorem C101_reversed_actual_partial : forall fuel x0 x1,
  (1 <= length x0 <= 3)%nat -> length x1 = length x0 -> x0 <> x1 ->
  span x0 x1 <= 707 -> through_origin x0 x1 -> (Z.to_nat (manhattan x0 x1) <= fuel)%nat ->
  exists rows, path fuel x0 x1 actual = Ok rows /\ path fuel x1 x0 actual = Ok (rev rows).
Proof. exact actual_rev. Qed.
Print Assumptions C101_reversed_actual_partial.

Example C101_case :
  (path 10 (mirror [1;-1] [0;1]) (mirror [1;-1] [3;2]) full = each (mirror [1;-1]) (path 10 [0;1] [3;2] full)) /\
  path 10 [0;0] [3;1] Bresenham = Ok [[0;0]; [1;0]; [2;1]; [3;1]] /\
  path 10 [0;0] [-3;1] Bresenham = Ok [[0;0]; [-1;0]; [-2;1]; [-3;1]] /\
  path 10 [0;0] [1;3] Bresenham = Ok [[0;0]; [0;1]; [1;2]; [1;3]] /\ pick [1%nat;0%nat] [3;1] = [1;3] /\
  path 10 [3;1] [0;0] Bresenham = Ok [[3;1]; [2;1]; [1;0]; [0;0]] /\ Permutation [1%nat;0%nat] (seq 0 2) /\
  path 10 [-2;-1] [2;1] actual = Ok [[-2;-1]; [-1;-1]; [-1;0]; [0;0]; [1;0]; [1;1]; [2;1]].
Proof.
  repeat (split; [vm_compute; reflexivity|]). split; [apply perm_swap|vm_compute; reflexivity].
Qed.

(** The full claims are false.  [full] passes a corner along the first axis first: *)
Theorem C101_axes_refuted : exists p x0 x1 rows rows', Permutation p (seq 0 2) /\
  path 10 x0 x1 full = Ok rows /\ path 10 (pick p x0) (pick p x1) full = Ok rows' /\ rows' <> map (pick p) rows.
Proof.
  exists [1%nat;0%nat], [0;0], [1;1], [[0;0]; [1;0]; [1;1]], [[0;0]; [1;0]; [1;1]]. split; [apply perm_swap|].
  split; [vm_compute; reflexivity|]. split; [vm_compute; reflexivity|]. discriminate.
Qed.
Print Assumptions C101_axes_refuted.

(** ... and halfway points go away from the start ([Bresenham]), corners along the first axis
    first ([full]), whatever the direction. *)
Theorem C101_reversed_refuted :
  (exists x0 x1 rows rows', path 10 x0 x1 Bresenham = Ok rows /\ path 10 x1 x0 Bresenham = Ok rows' /\ rows' <> rev rows) /\
  (exists x0 x1 rows rows', through_origin x0 x1 /\
     path 10 x0 x1 full = Ok rows /\ path 10 x1 x0 full = Ok rows' /\ rows' <> rev rows).
Proof.
  split.
  - exists [0;0], [2;1], [[0;0]; [1;1]; [2;1]], [[2;1]; [1;0]; [0;0]].
    split; [vm_compute; reflexivity|]. split; [vm_compute; reflexivity|]. discriminate.
  - exists [0;0], [1;1], [[0;0]; [1;0]; [1;1]], [[1;1]; [0;1]; [0;0]]. split; [apply (through_origin_zero [1;1] 2); reflexivity|].
    split; [vm_compute; reflexivity|]. split; [vm_compute; reflexivity|]. discriminate.
Qed.
Print Assumptions C101_reversed_refuted.
