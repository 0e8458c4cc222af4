(** * SpecDilate: what dilation means

    Positions are flat row-major indices, as in SpecCluster. *)

From Coq Require Import ZArith List.
From Verif Require Import Base SpecCluster.
Import ListNotations.
Open Scope Z_scope.

(** The origin of a kernel: the middle, or just below it for even lengths. *)
Definition anchor (ks : list Z) : list Z := map (fun n => (n - 1) / 2) ks.

(** The kernel is 1 at displacement [d] from its origin. *)
Definition kernel_offset (ks kv : list Z) (d : list Z) : Prop :=
  exists r, pixel ks r /\ zn kv r = 1 /\ moved false ks (anchor ks) d (coords ks r).

(** One step: from [p] to [q] by a displacement of the kernel, both inside the image
    (wrapping around when periodic). *)
Definition kernel_step (per : bool) (shape ks kv : list Z) (p q : Z) : Prop :=
  pixel shape p /\ pixel shape q /\
  exists d, kernel_offset ks kv d /\ moved per shape (coords shape p) d (coords shape q).

(** [reaches adj S k q]: [q] is at most [k] steps away from a position in [S]. *)
Inductive reaches (adj : Z -> Z -> Prop) (S : Z -> Prop) : Z -> Z -> Prop :=
| reaches_start : forall k p, 0 <= k -> S p -> reaches adj S k p
| reaches_step : forall k p q, reaches adj S k p -> adj p q -> reaches adj S (k + 1) q.

(** A non-empty image. *)
Definition image (shape f : list Z) : Prop :=
  Forall (fun n => 1 <= n) shape /\ lenZ f = zprod shape.

(** A kernel as an array (any values). *)
Definition kernel (ks kv : list Z) : Prop :=
  Forall (fun n => 1 <= n < 2 ^ 62) ks /\ lenZ kv = zprod ks.

(** Half the kernel fits the image along every axis. *)
Fixpoint half_fits (shape ks : list Z) : Prop :=
  match shape, ks with
  | n :: shape', k :: ks' => k / 2 <= n /\ half_fits shape' ks'
  | _, _ => True
  end.

(** Arguments for which [dilate] is meant: rank at most 3, kernel of 0 and 1 of the same
    rank, which in periodic mode fits the image; labels that index the list of iterations. *)
Definition dilatable (per : bool) (shape f ks kv iterations : list Z) : Prop :=
  (length shape <= 3)%nat /\ image shape f /\ length ks = length shape /\ kernel ks kv /\
  (forall k, In k kv -> k = 0 \/ k = 1) /\ (per = true -> half_fits shape ks) /\
  iterations <> [] /\ (forall n, In n iterations -> 0 <= n) /\
  (forall l, In l f -> 0 <= l < lenZ iterations).

(** Arguments of the overload with one number of iterations. *)
Definition dilatable_n (per : bool) (shape f ks kv : list Z) : Prop :=
  (length shape <= 3)%nat /\ image shape f /\ length ks = length shape /\ kernel ks kv /\
  (forall k, In k kv -> k = 0 \/ k = 1) /\ (per = true -> half_fits shape ks) /\
  (forall l, In l f -> 0 <= l < 2 ^ 62).
