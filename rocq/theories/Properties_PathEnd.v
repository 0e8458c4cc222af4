(** * Properties_PathEnd: C136 (which paths in the modes [actual] and [full] end) *)

From Coq Require Import ZArith QArith List Bool Lia Lqa.
From Verif Require Import Base Path SpecPath SpecPathEnd LineProofs PathEnd.
Import ListNotations.
Open Scope Z_scope.

(** ** C136: if the line through the two points passes through the inside of the pixel of the
    origin (along the axes on which they differ), a path is returned that connects them, and
    whose pixels, seen from [x0], are touched by that line. *)
Theorem C136_actual_ends : forall fuel x0 x1,
  (1 <= length x0 <= 3)%nat -> length x1 = length x0 -> x0 <> x1 ->
  span x0 x1 <= 707 -> meets_origin x0 x1 -> (Z.to_nat (manhattan x0 x1) <= fuel)%nat ->
  exists rows, path fuel x0 x1 actual = Ok rows /\ path_between (some_closer x1) x0 x1 rows /\
    forall r, In r rows -> exists t, touches_from x0 x1 t r.
Proof. exact actual_ends. Qed.
Print Assumptions C136_actual_ends.

Theorem C136_full_ends : forall fuel x0 x1,
  (1 <= length x0 <= 3)%nat -> length x1 = length x0 -> x0 <> x1 ->
  span x0 x1 <= 707 -> meets_origin x0 x1 -> (Z.to_nat (manhattan x0 x1) <= fuel)%nat ->
  exists rows, path fuel x0 x1 full = Ok rows /\ path_between (one_closer x1) x0 x1 rows /\
    lenZ rows = manhattan x0 x1 + 1 /\
    forall r, In r rows -> exists t, touches_from x0 x1 t r.
Proof. exact full_ends. Qed.
Print Assumptions C136_full_ends.

Example C136_case :
  path 10 [1;0] [4;2] actual = Ok [[1;0]; [2;0]; [3;0]; [3;1]; [4;1]; [4;2]] /\
  meets_origin [1;0] [4;2] /\ ~ through_origin [1;0] [4;2] /\ ~ meets_origin [5;0] [8;3].
Proof.
  split; [vm_compute; reflexivity|]. split; [|split].
  - apply meets_plane; lia.
  - intros (w & H). inversion_clear H as [|? ? ? ? H0 H']. inversion_clear H' as [|? ? ? ? H1 _].
    specialize (H0 ltac:(lia)). specialize (H1 ltac:(lia)).
    change (inject_Z (2 - 0)) with 2%Q in H1. change (inject_Z (4 - 1)) with 3%Q in H0.
    change (inject_Z 0) with 0%Q in H1. change (inject_Z 1) with 1%Q in H0. lra.
  - intros H. apply meets_plane in H; lia.
Qed.

(** If not, the call never returns. *)
Theorem C136_never_ends : forall fuel x0 x1 mode, mode = actual \/ mode = full ->
  (1 <= length x0 <= 3)%nat -> length x1 = length x0 -> x0 <> x1 ->
  span x0 x1 <= 707 -> ~ meets_origin x0 x1 -> path fuel x0 x1 mode = NoFuel.
Proof. exact never_ends. Qed.
Print Assumptions C136_never_ends.

Example C136_never_case : path 12 [5;0] [8;3] actual = NoFuel /\ path 12 [0;2;1] [3;3;3] full = NoFuel.
Proof. split; vm_compute; reflexivity. Qed.

(** The condition, for two points of the plane that differ along both axes. *)
Theorem C136_in_the_plane : forall a0 a1 b0 b1, a0 <> b0 -> a1 <> b1 ->
  (meets_origin [a0; a1] [b0; b1] <-> 2 * Z.abs (a0 * b1 - a1 * b0) < Z.abs (b0 - a0) + Z.abs (b1 - a1)).
Proof. exact meets_plane. Qed.
Print Assumptions C136_in_the_plane.

Example C136_plane_case : 2 * Z.abs (1 * 2 - 0 * 4) < Z.abs (4 - 1) + Z.abs (2 - 0) /\
  ~ (2 * Z.abs (5 * 3 - 0 * 8) < Z.abs (8 - 5) + Z.abs (3 - 0)).
Proof. lia. Qed.

(** A path that is returned need not follow the line: it can visit a pixel that the line does
    not touch. *)
Theorem C136_on_the_line_refuted : exists x0 x1 rows r,
  length x0 = 2%nat /\ length x1 = 2%nat /\ path 10 x0 x1 full = Ok rows /\ In r rows /\
  forall t, ~ touches x0 x1 t r.
Proof. exact off_the_line. Qed.
Print Assumptions C136_on_the_line_refuted.
