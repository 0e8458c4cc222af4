(** * Properties_LabellerMoved: C140

    Definitions used in the statements: [SpecLabellerMoved.v] (what it is to move the pixels of a
    history), [SpecSymmetry.v] ([rolls], [flips], [carried]), [SpecAxes.v] ([permutes]),
    [SpecCluster.v] (neighbours, legal calls, the pixels that were added), and the model. *)

From Coq Require Import ZArith List Bool Lia Permutation.
From Verif Require Import Base Cluster SpecCluster SpecSymmetry SpecAxes SpecLabellerMoved LabellerMoved LabellerMovedTop.
Import ListNotations.
Open Scope Z_scope.

(** ** C140 A labeller follows the pixels it is given *)

(** The same pixels, moved, in the same calls: every call returns the same list and every pixel
    has the very label it had.  Default kernel. *)
Theorem C140_labels_move_along : forall asrt shape shape' per T ops ops', good_shape shape -> good_shape shape' ->
  (length shape <= 3)%nat -> (length shape' <= 3)%nat -> zprod shape' = zprod shape -> one_to_one shape shape' T ->
  keeps_adjacent T (face_neighbour per shape) (face_neighbour per shape') ->
  Forall (legal shape) ops -> Forall2 (carried_op T) ops ops' ->
  exists g g' s s' outs, make_default shape per = Ok g /\ make_default shape' per = Ok g' /\
    run asrt g ops = Ok (s, outs) /\ run asrt g' ops' = Ok (s', outs) /\ carried T (c_label s) (c_label s').
Proof. exact default_moved. Qed.
Print Assumptions C140_labels_move_along.

(** Any kernel: it need not be symmetric, as the order of the pixels is kept. *)
Theorem C140_labels_move_along_kernel : forall asrt shape shape' per ks ks' kv kv' T ops ops', good_shape shape -> good_shape shape' ->
  good_kernel shape ks kv -> good_kernel shape' ks' kv' ->
  offsets_in_range per shape (set_offset ks kv) -> offsets_in_range per shape' (set_offset ks' kv') ->
  zprod shape' = zprod shape -> one_to_one shape shape' T ->
  keeps_adjacent T (kernel_neighbour per shape ks kv) (kernel_neighbour per shape' ks' kv') ->
  Forall (legal shape) ops -> Forall2 (carried_op T) ops ops' ->
  exists g g' s s' outs, make_kernel asrt shape per ks kv = Ok g /\ make_kernel asrt shape' per ks' kv' = Ok g' /\
    run asrt g ops = Ok (s, outs) /\ run asrt g' ops' = Ok (s', outs) /\ carried T (c_label s) (c_label s').
Proof. exact kernel_moved. Qed.
Print Assumptions C140_labels_move_along_kernel.

(** In other calls, images among them, that add the same pixels: the same clusters, under other
    labels. *)
Theorem C140_same_clusters : forall asrt shape shape' per T ops ops', good_shape shape -> good_shape shape' ->
  (length shape <= 3)%nat -> (length shape' <= 3)%nat -> one_to_one shape shape' T ->
  keeps_adjacent T (face_neighbour per shape) (face_neighbour per shape') ->
  Forall (legal shape) ops -> Forall (legal shape') ops' -> (forall p p', T p p' -> (added ops p <-> added ops' p')) ->
  exists g g' s s' outs outs', make_default shape per = Ok g /\ make_default shape' per = Ok g' /\
    run asrt g ops = Ok (s, outs) /\ run asrt g' ops' = Ok (s', outs') /\
    forall p q p' q', T p p' -> T q q' -> added ops p -> added ops q ->
      (zn (c_label s) p = zn (c_label s) q <-> zn (c_label s') p' = zn (c_label s') q').
Proof. exact default_same_clusters. Qed.
Print Assumptions C140_same_clusters.

Theorem C140_same_clusters_kernel : forall asrt shape shape' per ks ks' kv kv' T ops ops', good_shape shape -> good_shape shape' ->
  good_kernel shape ks kv -> good_kernel shape' ks' kv' -> kernel_symmetric ks kv -> kernel_symmetric ks' kv' ->
  offsets_in_range per shape (set_offset ks kv) -> offsets_in_range per shape' (set_offset ks' kv') -> one_to_one shape shape' T ->
  keeps_adjacent T (kernel_neighbour per shape ks kv) (kernel_neighbour per shape' ks' kv') ->
  Forall (legal shape) ops -> Forall (legal shape') ops' -> (forall p p', T p p' -> (added ops p <-> added ops' p')) ->
  exists g g' s s' outs outs', make_kernel asrt shape per ks kv = Ok g /\ make_kernel asrt shape' per ks' kv' = Ok g' /\
    run asrt g ops = Ok (s, outs) /\ run asrt g' ops' = Ok (s', outs') /\
    forall p q p' q', T p p' -> T q q' -> added ops p -> added ops q ->
      (zn (c_label s) p = zn (c_label s) q <-> zn (c_label s') p' = zn (c_label s') q').
Proof. exact kernel_same_clusters. Qed.
Print Assumptions C140_same_clusters_kernel.

(** Rolling a periodic image is such a move, for the default kernel and for every other. *)
Theorem C140_rolling : forall d shape, good_shape shape -> length d = length shape ->
  one_to_one shape shape (rolls d shape) /\ keeps_adjacent (rolls d shape) (face_neighbour true shape) (face_neighbour true shape) /\
  forall ks kv, keeps_adjacent (rolls d shape) (kernel_neighbour true shape ks kv) (kernel_neighbour true shape ks kv).
Proof. exact rolled_is_a_move. Qed.
Print Assumptions C140_rolling.

(** Flipping axes is such a move, the kernel flipped along. *)
Theorem C140_flipping : forall which shape per, good_shape shape -> length which = length shape ->
  one_to_one shape shape (flips which shape) /\ keeps_adjacent (flips which shape) (face_neighbour per shape) (face_neighbour per shape) /\
  forall ks kv kv', good_kernel shape ks kv -> carried (flips which ks) kv kv' ->
    keeps_adjacent (flips which shape) (kernel_neighbour per shape ks kv) (kernel_neighbour per shape ks kv').
Proof. exact flipped_is_a_move. Qed.
Print Assumptions C140_flipping.

(** Putting the axes in another order is such a move, the axes of the kernel in the same order. *)
Theorem C140_order_of_axes : forall order shape per, good_shape shape -> axes order (length shape) ->
  let shape' := arranged 0 order shape in
  one_to_one shape shape' (permutes order shape) /\ good_shape shape' /\ zprod shape' = zprod shape /\
  keeps_adjacent (permutes order shape) (face_neighbour per shape) (face_neighbour per shape') /\
  forall ks kv kv', good_kernel shape ks kv -> carried (permutes order ks) kv kv' ->
    keeps_adjacent (permutes order shape) (kernel_neighbour per shape ks kv) (kernel_neighbour per shape' (arranged 0 order ks) kv').
Proof. exact permuted_is_a_move. Qed.
Print Assumptions C140_order_of_axes.

(** A 2 x 3 image and its transpose, 3 x 2: pixels 0, 2, 1, 5 become 0, 4, 2, 5.  A sequence of
    them returns the same list, with the same labels: the merge happens at the same point. *)
Example C140_case :
  let T := permutes [1; 0]%nat [2; 3] in
  good_shape [2; 3] /\ axes [1; 0]%nat (length [2; 3]) /\ arranged 0 [1; 0]%nat [2; 3] = [3; 2] /\
  Forall2 (carried_op T) [AddPoints [0]; AddSequence [2; 1; 5]] [AddPoints [0]; AddSequence [4; 2; 5]] /\
  Forall (legal [2; 3]) [AddPoints [0]; AddSequence [2; 1; 5]] /\
  (exists g s, make_default [2; 3] false = Ok g /\ run true g [AddPoints [0]; AddSequence [2; 1; 5]] = Ok (s, [[]; [0; 1; 3]]) /\
     c_label s = [1; 1; 1; 0; 0; 1]) /\
  (exists g s, make_default [3; 2] false = Ok g /\ run true g [AddPoints [0]; AddSequence [4; 2; 5]] = Ok (s, [[]; [0; 1; 3]]) /\
     c_label s = [1; 0; 1; 0; 1; 1]).
Proof.
  assert (P : forall p p', 0 <= p < 6 -> 0 <= p' < 6 -> coords [3; 2] p' = arranged 0 [1; 0]%nat (coords [2; 3] p) -> permutes [1; 0]%nat [2; 3] p p').
  { intros p p' H H' E. split; [exact H|]. split; [exact H'|exact E]. }
  split; [repeat split; [discriminate|repeat constructor; lia]|]. split; [constructor|]. split; [reflexivity|]. split.
  { constructor; [|constructor; [|constructor]]; cbn [carried_op]; repeat (apply Forall2_cons || apply Forall2_nil); apply P; try lia; reflexivity. }
  split. { constructor; [|constructor; [|constructor]]; cbn; [|split; [discriminate|]]; intros p; unfold pixel; cbn; intros; lia. }
  split; eexists; eexists; (split; [reflexivity|]); (split; [vm_compute; reflexivity|]); reflexivity.
Qed.
