(** * Properties_Labels: C16 - C21

    Label images are flattened row-major; [zn l p] is element [p].  A two-column array with
    rows [rows] is passed as its shape ([lenZ rows], 2) and its flat data [table rows]. *)

From Coq Require Import ZArith List Bool Lia Sorted.
From Verif Require Import Base Labels SpecLabels LabelsTop LabelsProofs.
Import ListNotations.
Open Scope Z_scope.

(** ** C16 *)
Theorem C16_map_then_rename_is_target : forall asrt a b, lenZ a = lenZ b ->
  (forall p q, 0 <= p < lenZ a -> 0 <= q < lenZ a -> zn a p = zn a q -> zn b p = zn b q) ->
  exists rows, labels_map a b = Ok rows /\
    labels_rename asrt a (lenZ rows) 2 (table rows) = Ok b.
Proof. exact map_rename. Qed.
Print Assumptions C16_map_then_rename_is_target.

Theorem C16_map_rows : forall a b, lenZ a = lenZ b ->
  exists rows, labels_map a b = Ok rows /\ StronglySorted Z.lt (map fst rows) /\
    forall k v, In (k, v) rows <-> exists i, first_at a k i /\ zn b i = v.
Proof. exact map_spec. Qed.
Print Assumptions C16_map_rows.

Example C16_case :
  (forall p q, 0 <= p < 6 -> 0 <= q < 6 -> zn [7;-2;0;7;0;5] p = zn [7;-2;0;7;0;5] q ->
     zn [1;2;0;1;0;1] p = zn [1;2;0;1;0;1] q) /\
  labels_map [7;-2;0;7;0;5] [1;2;0;1;0;1] = Ok [(-2,2);(0,0);(5,1);(7,1)] /\
  labels_rename true [7;-2;0;7;0;5] 4 2 [-2;2;0;0;5;1;7;1] = Ok [1;2;0;1;0;1].
Proof.
  split; [|vm_compute; auto]. intros p q Hp Hq.
  assert (p = 0 \/ p = 1 \/ p = 2 \/ p = 3 \/ p = 4 \/ p = 5) as P by lia.
  assert (q = 0 \/ q = 1 \/ q = 2 \/ q = 3 \/ q = 4 \/ q = 5) as Q by lia.
  decompose [or] P; decompose [or] Q; subst; vm_compute; congruence.
Qed.

(** ** C17 *)
Theorem C17_rename_applies_table : forall asrt labels rows,
  (forall l, In l labels -> exists w, In (l, w) rows) ->
  exists ret, labels_rename asrt labels (lenZ rows) 2 (table rows) = Ok ret /\
    lenZ ret = lenZ labels /\
    forall p, 0 <= p < lenZ labels -> first_row rows (zn labels p) (zn ret p).
Proof. exact rename_spec. Qed.
Print Assumptions C17_rename_applies_table.

Theorem C17_rename_missing_label : forall labels rows l,
  In l labels -> (forall w, ~ In (l, w) rows) ->
  labels_rename true labels (lenZ rows) 2 (table rows) = Throw /\
  exists ret, labels_rename false labels (lenZ rows) 2 (table rows) = Ok ret /\
    lenZ ret = lenZ labels /\
    forall p, 0 <= p < lenZ labels ->
      (forall v, first_row rows (zn labels p) v -> zn ret p = v) /\
      ((forall w, ~ In (zn labels p, w) rows) -> zn ret p = 0).
Proof. exact rename_missing. Qed.
Print Assumptions C17_rename_missing_label.

Theorem C17_rename_table_must_have_two_columns : forall labels nr nc data,
  nc <> 2 -> labels_rename true labels nr nc data = Throw.
Proof. exact rename_wrong_width. Qed.
Print Assumptions C17_rename_table_must_have_two_columns.

Example C17_case :
  (forall l, In l [3;0;3;1] -> exists w, In (l, w) [(0,0);(3,9);(1,-4);(3,5)]) /\
  labels_rename true [3;0;3;1] 4 2 (table [(0,0);(3,9);(1,-4);(3,5)]) = Ok [9;0;9;-4] /\
  labels_rename true [3;0;3;2] 4 2 (table [(0,0);(3,9);(1,-4);(3,5)]) = Throw /\
  labels_rename false [3;0;3;2] 4 2 (table [(0,0);(3,9);(1,-4);(3,5)]) = Ok [9;0;9;0] /\
  labels_rename true [3] 1 2 (table [(3,9)]) = Ok [9].
Proof.
  split; [|vm_compute; auto].
  intros l H; simpl in H; decompose [or] H; subst; simpl; eauto; tauto.
Qed.

(** ** C18 *)
Theorem C18_prune_renumbers : forall asrt labels,
  exists ret, labels_prune asrt labels = Ok ret /\ lenZ ret = lenZ labels /\
    (forall p, 0 <= p < lenZ labels -> (zn ret p = 0 <-> zn labels p = 0)) /\
    (forall p q, 0 <= p < lenZ labels -> 0 <= q < lenZ labels ->
       zn labels p <> 0 -> zn labels q <> 0 ->
       (zn ret p < zn ret q <-> zn labels p < zn labels q)) /\
    (exists n, forall v, 1 <= v <= n <-> v <> 0 /\ In v ret) /\
    labels_prune asrt ret = Ok ret.
Proof. exact prune_spec_labels. Qed.
Print Assumptions C18_prune_renumbers.

Example C18_case :
  labels_prune true [5;0;-3;9;5;0] = Ok [2;0;1;3;2;0] /\
  labels_prune true [5;-3;9;5] = Ok [2;1;3;2] /\
  labels_prune true [5;0;9;5] = Ok [1;0;2;1] /\
  labels_prune true [] = Ok [].
Proof. vm_compute; auto. Qed.

(** ** C19 *)
Theorem C19_reorder_maps_order_to_position : forall asrt labels order,
  order <> [] -> NoDup order ->
  (forall x, In x labels <-> In x order) -> (forall x, In x labels -> 0 <= x) ->
  exists ret, labels_reorder asrt labels order = Ok ret /\ length ret = length labels /\
    forall p, 0 <= p < lenZ labels ->
      0 <= zn ret p < lenZ order /\ zn order (zn ret p) = zn labels p.
Proof. exact labels_reorder_ok. Qed.
Print Assumptions C19_reorder_maps_order_to_position.

Theorem C19_reorder_by_identity : forall asrt labels n, labels <> [] -> 0 < n ->
  (forall x, In x labels <-> 0 <= x < n) ->
  labels_reorder asrt labels (zseq 0 (Z.to_nat n)) = Ok labels.
Proof. exact reorder_identity. Qed.
Print Assumptions C19_reorder_by_identity.

Example C19_case :
  NoDup [4;0;2] /\ (forall x, In x [0;4;4;2] <-> In x [4;0;2]) /\
  labels_reorder true [0;4;4;2] [4;0;2] = Ok [1;0;0;2] /\
  (forall x, In x [2;0;1;1] <-> 0 <= x < 3) /\
  labels_reorder true [2;0;1;1] (zseq 0 3) = Ok [2;0;1;1].
Proof.
  split; [repeat constructor; simpl; lia|]. split; [intros x; simpl; tauto|].
  split; [reflexivity|]. split; [intros x; simpl; lia|reflexivity].
Qed.

(** ** C20: false of the code *)
Theorem C20_reorder_negative_labels_refuted :
  exists labels order, (forall x, In x labels <-> In x order) /\ NoDup order /\
    labels_reorder true labels order = UB.
Proof.
  exists [-1; 2; 0; 2], [2; -1; 0].
  split; [intros x; simpl; tauto|]. split; [repeat constructor; simpl; lia|reflexivity].
Qed.
Print Assumptions C20_reorder_negative_labels_refuted.

(** Also an empty image dereferences the end iterator. *)
Theorem C20_reorder_empty_image_refuted : labels_reorder true [] [] = UB.
Proof. reflexivity. Qed.
Print Assumptions C20_reorder_empty_image_refuted.

(** The true part: non-empty images without negative labels. *)
Theorem C20_reorder_throws_or_returns_partial : forall labels order,
  labels <> [] -> (forall x, In x labels -> 0 <= x) ->
  ((forall x, In x labels <-> In x order) ->
     exists ret, labels_reorder true labels order = Ok ret) /\
  (~ (forall x, In x labels <-> In x order) -> labels_reorder true labels order = Throw).
Proof. exact reorder_outcome. Qed.
Print Assumptions C20_reorder_throws_or_returns_partial.

Example C20_case :
  labels_reorder true [0;4;4;2] [4;0;2;4] = Ok [1;3;3;2] /\
  labels_reorder true [0;4;4;2] [4;0] = Throw /\ labels_reorder true [0;4;4;2] [4;0;3] = Throw /\
  labels_reorder true [1] [-5] = Throw /\ labels_reorder true [1] [] = Throw.
Proof. vm_compute; auto 10. Qed.

(** ** C21 *)
Theorem C21_sizes_count_pixels : forall labels,
  StronglySorted Z.lt (map fst (labels_sizes labels)) /\
  (forall k c, In (k, c) (labels_sizes labels) <-> In k labels /\ c = occurrences labels k) /\
  zsum (map snd (labels_sizes labels)) = lenZ labels.
Proof. exact sizes_spec. Qed.
Print Assumptions C21_sizes_count_pixels.

Theorem C21_sizes_of_names : forall labels names,
  labels_sizes_names labels names = map (occurrences labels) names.
Proof. exact sizes_names_spec. Qed.
Print Assumptions C21_sizes_of_names.

Example C21_case :
  labels_sizes [5;0;-3;5;5;0] = [(-3,1);(0,2);(5,3)] /\
  labels_sizes_names [5;0;-3;5;5;0] [5;7;0;7] = [3;0;2;0].
Proof. vm_compute; auto. Qed.
