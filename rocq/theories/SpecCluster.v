(** * SpecCluster: what cluster labelling means

    Independent of how the labeller works.  Pixels are flat row-major indices (this is how
    the API itself names pixels in [add_points]); their coordinates are defined here. *)

From Coq Require Import ZArith List Bool.
From Verif Require Import Base Cluster.
Import ListNotations.
Open Scope Z_scope.

(** ** Pixels and coordinates *)

(** Flat index of a pixel inside an array of this shape. *)
Definition pixel (shape : list Z) (p : Z) : Prop := 0 <= p < zprod shape.

(** Row-major coordinates of a flat index. *)
Fixpoint coords (shape : list Z) (p : Z) : list Z :=
  match shape with
  | [] => []
  | _ :: rest => p / zprod rest :: coords rest (p mod zprod rest)
  end.

(** [moved per shape a d b]: [b] is the position [a] displaced by [d]; in a periodic box
    modulo the shape. *)
Fixpoint moved (per : bool) (shape a d b : list Z) : Prop :=
  match shape, a, d, b with
  | [], [], [], [] => True
  | n :: shape', x :: a', t :: d', y :: b' =>
      (if per then y = (x + t) mod n else y = x + t) /\ moved per shape' a' d' b'
  | _, _, _, _ => False
  end.

(** [q] is a neighbour of [p]: the displacement from [p] to [q] is one of [offs]. *)
Definition neighbour (per : bool) (shape : list Z) (offs : list (list Z)) (p q : Z) : Prop :=
  pixel shape p /\ pixel shape q /\
  exists d, In d offs /\ moved per shape (coords shape p) d (coords shape q).

(** Face neighbours, for the default kernel: all coordinates equal but one, and that one
    differs by exactly one (modulo the shape in a periodic box). *)
Fixpoint face (per : bool) (shape a b : list Z) : Prop :=
  match shape, a, b with
  | n :: shape', x :: a', y :: b' =>
      (x = y /\ face per shape' a' b') \/
      ((if per then y = (x + 1) mod n \/ y = (x - 1) mod n else y = x + 1 \/ y = x - 1)
       /\ a' = b')
  | _, _, _ => False
  end.

Definition face_neighbour (per : bool) (shape : list Z) (p q : Z) : Prop :=
  pixel shape p /\ pixel shape q /\ face per shape (coords shape p) (coords shape q).

(** ** Connectivity *)

(** [linked adj A p q]: a chain of pixels of [A] leads from [p] to [q], each adjacent to
    the next. *)
Inductive linked (adj : Z -> Z -> Prop) (A : Z -> Prop) : Z -> Z -> Prop :=
| linked_refl : forall p, A p -> linked adj A p p
| linked_step : forall p q r, A p -> adj p q -> linked adj A q r -> linked adj A p r.

(** ** Histories *)

(** Which calls are legal: images of the right shape, points inside the image. *)
Definition legal (shape : list Z) (o : op) : Prop :=
  match o with
  | AddImage sh img => sh = shape /\ lenZ img = zprod shape
  | AddPoints l => forall p, In p l -> pixel shape p
  | AddSequence l => l <> [] /\ forall p, In p l -> pixel shape p
  | Prune => True
  | Reset => True
  end.

(** Calls that add pixels. *)
Definition is_add (o : op) : Prop :=
  match o with AddImage _ _ | AddPoints _ | AddSequence _ => True | _ => False end.

(** The pixels a call adds, in order: for an image, its non-zero pixels in row-major order. *)
Definition points_of (o : op) : list Z :=
  match o with
  | AddImage _ img => filter (fun p => negb (nth (Z.to_nat p) img 0 =? 0)) (map Z.of_nat (seq 0 (length img)))
  | AddPoints l | AddSequence l => l
  | Prune | Reset => []
  end.

(** The pixels added by a call, on top of [A]. *)
Definition added_by (A : Z -> Prop) (o : op) : Z -> Prop :=
  match o with
  | AddImage _ img => fun p => A p \/ (0 <= p < lenZ img /\ nth (Z.to_nat p) img 0 <> 0)
  | AddPoints l => fun p => A p \/ In p l
  | AddSequence l => fun p => A p \/ In p l
  | Prune => A
  | Reset => fun _ => False
  end.

(** The pixels added since construction or the last reset. *)
Definition added (ops : list op) : Z -> Prop := fold_left added_by ops (fun _ => False).

(** The same as a list, in the order in which they were added. *)
Definition sequence (ops : list op) : list Z :=
  fold_left (fun l o => match o with Reset => [] | _ => l ++ points_of o end) ops [].

(** [q] is in [l] before the first [p]. *)
Definition earlier (l : list Z) (q p : Z) : Prop :=
  exists l1 l2, l = l1 ++ p :: l2 /\ ~ In p l1 /\ In q l1.

(** Of [x] and [y], the one that was added last has the other as a neighbour. *)
Definition joined (per : bool) (shape : list Z) (offs : list (list Z)) (l : list Z) (x y : Z) : Prop :=
  (neighbour per shape offs x y /\ earlier l y x) \/ (neighbour per shape offs y x /\ earlier l x y).

(** ** Configurations *)

(** A well-formed labeller: rank at least one, non-negative shape, one offset component
    per axis, and sizes far from the 64-bit limits. *)
Definition big : Z := 4611686018427387904. (* 2^62 *)

Definition wf (g : cfg) : Prop :=
  g_shape g <> [] /\ Forall (fun n => 0 <= n) (g_shape g) /\ zprod (g_shape g) < big /\
  forall d, In d (g_dx g) ->
    length d = length (g_shape g) /\ Forall (fun x => - big < x < big) d.

(** Offsets within the range in which the neighbour arithmetic is right (see C13):
    - rank 1 and 2, periodic: no offset reaches back further than the length of its axis;
    - rank 2, not periodic, one row (column): an offset out of the row (column) that also
      moves along it must be accompanied by its projection. *)
Definition offsets_in_range (per : bool) (shape : list Z) (offs : list Z -> Prop) : Prop :=
  match shape with
  | [n] => per = true -> forall d0, offs [d0] -> - n <= d0
  | [n0; n1] =>
      if per then
        forall d0 d1, offs [d0; d1] ->
          (n0 <> 1 -> - n0 <= d0) /\ (n0 = 1 \/ n1 <> 1 -> - n1 <= d1)
      else
        forall d0 d1, offs [d0; d1] ->
          (n0 = 1 -> d0 = 0 \/ d1 = 0 \/ offs [0; d1]) /\
          (n0 <> 1 -> n1 = 1 -> d1 = 0 \/ d0 = 0 \/ offs [d0; 0])
  | _ => True
  end.

Definition in_range (g : cfg) : Prop :=
  offsets_in_range (g_per g) (g_shape g) (fun d => In d (g_dx g)).

(** Kernel symmetric about its centre. *)
Definition symmetric (g : cfg) : Prop :=
  forall d, In d (g_dx g) -> In (map Z.opp d) (g_dx g).

(** Number of different non-zero values. *)
Definition nclusters (l : list Z) : nat := length (filter (fun x => negb (x =? 0)) (nodup Z.eq_dec l)).

(** ** Images and kernels as the user gives them *)

(** A shape of rank at least one, of a size far from the 64-bit limits. *)
Definition good_shape (shape : list Z) : Prop :=
  shape <> [] /\ Forall (fun n => 0 <= n) shape /\ zprod shape < big.

(** The middle of a kernel of odd lengths. *)
Definition centre (ks : list Z) : list Z := map (fun n => n / 2) ks.

(** The kernel [kv] (of shape [ks]) has a non-zero entry at displacement [d] from its
    centre. *)
Definition set_offset (ks kv : list Z) (d : list Z) : Prop :=
  exists p, pixel ks p /\ nth (Z.to_nat p) kv 0 <> 0 /\ moved false ks (centre ks) d (coords ks p).

(** What the documentation asks of a kernel: the rank of the image, odd lengths, and 1 in
    the middle. *)
Definition good_kernel (shape ks kv : list Z) : Prop :=
  length ks = length shape /\ Forall (fun n => 0 < n < big /\ n mod 2 = 1) ks /\
  lenZ kv = zprod ks /\
  forall p, pixel ks p -> coords ks p = centre ks -> nth (Z.to_nat p) kv 0 = 1.

Definition kernel_symmetric (ks kv : list Z) : Prop :=
  forall d, set_offset ks kv d -> set_offset ks kv (map Z.opp d).

(** [q] is reached from [p] by a displacement that is set in the kernel. *)
Definition kernel_neighbour (per : bool) (shape ks kv : list Z) (p q : Z) : Prop :=
  pixel shape p /\ pixel shape q /\
  exists d, set_offset ks kv d /\ moved per shape (coords shape p) d (coords shape q).

(** ** Numbering *)

(** [f] is the first pixel, in row-major order, that has the label of [p]. *)
Definition first_of (shape lab : list Z) (f p : Z) : Prop :=
  pixel shape f /\ nth (Z.to_nat f) lab 0 = nth (Z.to_nat p) lab 0 /\
  forall q, pixel shape q -> nth (Z.to_nat q) lab 0 = nth (Z.to_nat p) lab 0 -> f <= q.

(** Arguments that exist as C++ values: an image has as many pixels as its shape says, and
    an index fits the index type. *)
Definition representable (o : op) : Prop :=
  match o with
  | AddImage sh img => lenZ img = zprod sh
  | AddPoints l | AddSequence l => forall p, In p l -> - two63 <= p < two64
  | _ => True
  end.

(** Face or edge neighbours in three dimensions: every coordinate differs by at most one
    (modulo the shape when periodic) and at least one of the three displacements is zero. *)
Definition face_or_edge (per : bool) (shape : list Z) (p q : Z) : Prop :=
  pixel shape p /\ pixel shape q /\
  exists d0 d1 d2, -1 <= d0 <= 1 /\ -1 <= d1 <= 1 /\ -1 <= d2 <= 1 /\
    (d0 = 0 \/ d1 = 0 \/ d2 = 0) /\
    moved per shape (coords shape p) [d0; d1; d2] (coords shape q).
