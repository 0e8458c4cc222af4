(** * Properties_Typed: C124

    See properties.jsonl for the English statement; the specification is in SpecTyped.v and
    SpecLabels.v.  The functions without a type ([labels_prune], ...) are those of C16 - C21,
    with unbounded integers. *)

From Coq Require Import ZArith List Bool Lia Sorted.
From Verif Require Import Base Labels SpecLabels LabelsTyped SpecTyped LabelsTypedTop.
Import ListNotations.
Open Scope Z_scope.

(** ** C124 *)

(** Renaming, with labels of one type and a table of another one. *)
Theorem C124_rename_partial : forall L A asrt labels rows,
  (forall l, In l labels -> fits A l) -> (forall k v, In (k, v) rows -> fits L v) ->
  labels_rename_t L A asrt labels (lenZ rows) 2 (table rows) = labels_rename asrt labels (lenZ rows) 2 (table rows).
Proof. exact typed_rename. Qed.
Print Assumptions C124_rename_partial.

(** A label that the type of the table cannot hold is taken for another one; not even the
    assertion sees this. *)
Theorem C124_rename_refuted : exists L A labels rows l,
  In l labels /\ fits L l /\ (forall w, ~ In (l, w) rows) /\ (forall k v, In (k, v) rows -> fits A k /\ fits A v) /\
  exists ret, labels_rename_t L A true labels (lenZ rows) 2 (table rows) = Ok ret.
Proof. exact typed_rename_bad. Qed.
Print Assumptions C124_rename_refuted.

(** Pruning is exact for all unsigned types, and for signed ones if the number of labels can be
    represented. *)
Theorem C124_prune_unsigned : forall T asrt labels,
  (T = U8 \/ T = U16 \/ T = U32 \/ T = U64) -> (forall l, In l labels -> fits T l) ->
  labels_prune_t T asrt labels = labels_prune asrt labels.
Proof. exact typed_prune_unsigned. Qed.
Print Assumptions C124_prune_unsigned.

Theorem C124_prune_partial : forall T asrt labels names,
  (forall l, In l labels -> fits T l) -> (forall l, In l labels -> l <> 0 -> In l names) -> fits T (lenZ names) ->
  labels_prune_t T asrt labels = labels_prune asrt labels.
Proof. exact typed_prune. Qed.
Print Assumptions C124_prune_partial.

(** In all cases different labels stay different, and the background stays the background. *)
Theorem C124_prune_keeps_labels_apart : forall T asrt labels, (forall l, In l labels -> fits T l) ->
  exists ret, labels_prune_t T asrt labels = Ok ret /\ lenZ ret = lenZ labels /\
    (forall p, 0 <= p < lenZ labels -> (zn ret p = 0 <-> zn labels p = 0)) /\
    (forall p q, 0 <= p < lenZ labels -> 0 <= q < lenZ labels -> (zn ret p = zn ret q <-> zn labels p = zn labels q)).
Proof. exact typed_prune_always. Qed.
Print Assumptions C124_prune_keeps_labels_apart.

(** But the new labels are not 1, 2, ... if there are too many of them. *)
Theorem C124_prune_refuted : exists T labels ret l,
  (forall x, In x labels -> fits T x) /\ labels_prune_t T true labels = Ok ret /\ In l ret /\ l < 0.
Proof. exact typed_prune_bad. Qed.
Print Assumptions C124_prune_refuted.

(** Reordering: the largest label must not be the largest value of a 32-bit type. *)
Theorem C124_reorder_partial : forall L A asrt labels order,
  order <> [] -> NoDup order -> (forall x, In x labels <-> In x order) ->
  (forall x, In x labels -> fits L x /\ fits A x /\ 0 <= x < 2 ^ 59) ->
  (forall x, In x order -> (A = I32 -> x < 2 ^ 31 - 1) /\ (A = U32 -> x < 2 ^ 32 - 1)) ->
  labels_reorder_t L A asrt labels order = labels_reorder asrt labels order.
Proof. exact typed_reorder. Qed.
Print Assumptions C124_reorder_partial.

Theorem C124_reorder_refuted : exists A labels order,
  order <> [] /\ NoDup order /\ (forall x, In x labels <-> In x order) /\ (forall x, In x labels -> fits A x /\ 0 <= x) /\
  labels_reorder_t A A true labels order = UB.
Proof. exact typed_reorder_bad. Qed.
Print Assumptions C124_reorder_refuted.

(** Sizes are exact if the number of pixels can be represented, and otherwise up to a multiple
    of the number of values of the type. *)
Theorem C124_sizes_partial : forall T labels, fits T (lenZ labels) -> labels_sizes_t T labels = Ok (labels_sizes labels).
Proof. exact typed_sizes. Qed.
Print Assumptions C124_sizes_partial.

Theorem C124_sizes_modulo : forall T labels, wraps T ->
  exists rows, labels_sizes_t T labels = Ok rows /\ StronglySorted Z.lt (map fst rows) /\
    (forall k, In k (map fst rows) <-> In k labels) /\
    forall k c, In (k, c) rows -> fits T c /\ same_modulo T c (occurrences labels k).
Proof. exact typed_sizes_modulo. Qed.
Print Assumptions C124_sizes_modulo.

(** A label can have size zero. *)
Theorem C124_sizes_refuted : exists T labels k,
  In k labels /\ (forall l, In l labels -> fits T l) /\ labels_sizes_t T labels = Ok [(k, 0)].
Proof. exact typed_sizes_bad. Qed.
Print Assumptions C124_sizes_refuted.

Theorem C124_sizes_names_partial : forall T labels names,
  fits T (lenZ labels) -> (forall n, In n names -> fits T n) ->
  labels_sizes_names_t T labels names = Ok (labels_sizes_names labels names).
Proof. exact typed_sizes_names. Qed.
Print Assumptions C124_sizes_names_partial.

Theorem C124_sizes_names_refuted : exists T labels n,
  (forall l, In l labels -> fits T l) /\ ~ In n labels /\ labels_sizes_names_t T labels [n] = Ok [1].
Proof. exact typed_sizes_names_bad. Qed.
Print Assumptions C124_sizes_names_refuted.

(** With the type that is used in Python nothing can go wrong. *)
Theorem C124_as_in_python : forall asrt labels, (forall l, In l labels -> fits I64 l) -> lenZ labels < 2 ^ 63 ->
  labels_prune_t I64 asrt labels = labels_prune asrt labels /\
  labels_sizes_t I64 labels = Ok (labels_sizes labels) /\
  (forall names, (forall n, In n names -> fits I64 n) ->
     labels_sizes_names_t I64 labels names = Ok (labels_sizes_names labels names)) /\
  (forall rows, (forall k v, In (k, v) rows -> fits I64 v) ->
     labels_rename_t I64 I64 asrt labels (lenZ rows) 2 (table rows) = labels_rename asrt labels (lenZ rows) 2 (table rows)).
Proof. exact typed_python. Qed.
Print Assumptions C124_as_in_python.

(** Cases within the bounds, and of 128 labels in eight bits. *)
Example C124_case :
  (forall l, In l [5;0;-3;9;5;0] -> fits I8 l) /\ labels_prune_t I8 true [5;0;-3;9;5;0] = Ok [2;0;1;3;2;0] /\
  (forall l, In l [5;0;200;9;5;0] -> fits U8 l) /\ labels_prune_t U8 true [5;0;200;9;5;0] = Ok [1;0;3;2;1;0] /\
  labels_prune_t I8 true (zseq (-128) 128) = Ok (zseq 1 127 ++ [-128]) /\
  labels_rename_t U8 I16 true [3;0;3] 2 2 (table [(0, 255); (3, 7)]) = Ok [7;255;7] /\
  labels_reorder_t U8 I16 true [0;4;4;2] [4;0;2] = Ok [1;0;0;2] /\
  labels_sizes_t I8 [5;0;-3;5;5;0] = Ok [(-3, 1);(0, 2);(5, 3)] /\
  labels_sizes_t I8 (repeat 1 130) = Ok [(1, -126)] /\ same_modulo I8 (-126) 130 /\
  labels_sizes_names_t U16 [5;0;5] [5;7;0] = Ok [2;0;1].
Proof.
  split; [intros l H; cbn in H; cbn; intuition lia|]. split; [vm_compute; reflexivity|]. split; [intros l H; cbn in H; cbn; intuition lia|].
  do 6 (split; [vm_compute; reflexivity|]). split; [exists (-1); reflexivity|vm_compute; reflexivity].
Qed.
