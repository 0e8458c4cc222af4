(** * Properties_PathMachine: C143

    Statements only; each is closed by a lemma proved elsewhere.  [path]: exact arithmetic;
    [fpath]: every operation on [double]s rounded; [ipath]: moreover [int]s of 32 bits. *)

From Coq Require Import ZArith QArith List Bool Lia Lqa.
From Verif Require Import Base Path SpecPath SpecPathEnd LineProofs PathEnd Double PathFloat IntArith PathFloatEnd PathMachine PathFull.
Import ListNotations.
Open Scope Z_scope.

(** ** C143: rounding changes neither the pixels of a path nor whether it ends, whatever the
    line (C83: for lines through the origin) *)
Theorem C143_rounding_is_immaterial : forall fuel x0 x1 mode,
  (1 <= length x0 <= 3)%nat -> length x1 = length x0 -> span x0 x1 <= 707 ->
  Forall (fun c => Z.abs c <= 4096) x0 ->
  fpath fuel x0 x1 mode = path fuel x0 x1 mode.
Proof. exact fpath_eq_any. Qed.
Print Assumptions C143_rounding_is_immaterial.

(** So C136 holds of what the machine computes: a path that ends. *)
Theorem C143_actual_ends : forall fuel x0 x1,
  (1 <= length x0 <= 3)%nat -> length x1 = length x0 -> x0 <> x1 ->
  span x0 x1 <= 707 -> Forall (fun c => Z.abs c <= 4096) x0 ->
  meets_origin x0 x1 -> (Z.to_nat (manhattan x0 x1) <= fuel)%nat ->
  exists rows, fpath fuel x0 x1 actual = Ok rows /\ path_between (some_closer x1) x0 x1 rows /\
    forall r, In r rows -> exists t, touches_from x0 x1 t r.
Proof. exact factual_ends. Qed.
Print Assumptions C143_actual_ends.

Theorem C143_full_ends : forall fuel x0 x1,
  (1 <= length x0 <= 3)%nat -> length x1 = length x0 -> x0 <> x1 ->
  span x0 x1 <= 707 -> Forall (fun c => Z.abs c <= 4096) x0 ->
  meets_origin x0 x1 -> (Z.to_nat (manhattan x0 x1) <= fuel)%nat ->
  exists rows, fpath fuel x0 x1 full = Ok rows /\ path_between (one_closer x1) x0 x1 rows /\
    lenZ rows = manhattan x0 x1 + 1 /\ forall r, In r rows -> exists t, touches_from x0 x1 t r.
Proof. exact ffull_ends. Qed.
Print Assumptions C143_full_ends.

(** The loop of the others has no end: however many turns are allowed, they do not suffice. *)
Theorem C143_never_ends : forall fuel x0 x1 mode, mode = actual \/ mode = full ->
  (1 <= length x0 <= 3)%nat -> length x1 = length x0 -> x0 <> x1 ->
  span x0 x1 <= 707 -> Forall (fun c => Z.abs c <= 4096) x0 ->
  ~ meets_origin x0 x1 -> fpath fuel x0 x1 mode = NoFuel.
Proof. exact fnever_ends. Qed.
Print Assumptions C143_never_ends.

(** With [int]s of 32 bits: the paths that end are the same ... *)
Theorem C143_machine_ends : forall fuel x0 x1 mode, mode = actual \/ mode = full ->
  (1 <= length x0 <= 3)%nat -> length x1 = length x0 -> x0 <> x1 ->
  span x0 x1 <= 707 -> Forall (fun c => Z.abs c <= 4096) x0 -> meets_origin x0 x1 ->
  (Z.to_nat (manhattan x0 x1) <= fuel)%nat ->
  exists rows, ipath fuel x0 x1 mode = Ok rows /\ path fuel x0 x1 mode = Ok rows.
Proof. exact iline_ends. Qed.
Print Assumptions C143_machine_ends.

(** ... and the others run into the overflow of an [int]. *)
Theorem C143_machine_overflows : forall fuel x0 x1 mode, mode = actual \/ mode = full ->
  (1 <= length x0 <= 3)%nat -> length x1 = length x0 -> x0 <> x1 ->
  span x0 x1 <= 707 -> Forall (fun c => Z.abs c <= 4096) x0 -> ~ meets_origin x0 x1 ->
  2 ^ 31 <= Z.of_nat fuel -> ipath fuel x0 x1 mode = UB.
Proof. exact iline_overflows_all. Qed.
Print Assumptions C143_machine_overflows.

Example C143_case :
  fpath 10 [1;0] [4;2] actual = Ok [[1;0]; [2;0]; [3;0]; [3;1]; [4;1]; [4;2]] /\
  ipath 10 [1;0] [4;2] actual = Ok [[1;0]; [2;0]; [3;0]; [3;1]; [4;1]; [4;2]] /\
  fpath 12 [5;0] [8;3] actual = NoFuel /\
  meets_origin [1;0] [4;2] /\ ~ through_origin [1;0] [4;2] /\ ~ meets_origin [5;0] [8;3] /\
  span [1;0] [4;2] <= 707 /\ span [5;0] [8;3] <= 707 /\ Forall (fun c => Z.abs c <= 4096) [5;0].
Proof.
  split; [vm_compute; reflexivity|]. split; [vm_compute; reflexivity|]. split; [vm_compute; reflexivity|].
  split; [|split; [|split; [|split; [|split]]]].
  - apply meets_plane; lia.
  - intros (w & H). inversion_clear H as [|? ? ? ? H0 H']. inversion_clear H' as [|? ? ? ? H1 _].
    specialize (H0 ltac:(lia)). specialize (H1 ltac:(lia)).
    change (inject_Z (2 - 0)) with 2%Q in H1. change (inject_Z (4 - 1)) with 3%Q in H0.
    change (inject_Z 0) with 0%Q in H1. change (inject_Z 1) with 1%Q in H0. lra.
  - intros H. apply meets_plane in H; lia.
  - vm_compute. discriminate.
  - vm_compute. discriminate.
  - repeat constructor; vm_compute; discriminate.
Qed.
