(** * C134: the result does not depend on where the elements of an array are in memory.
    False of the code for the functions that read through [flat]; true of arrays in row-major
    order, and refused by [clusters] with assertions. *)

From Coq Require Import ZArith List Bool.
From Verif Require Import Base Cluster Labels SpecCluster SpecLabels Layout SpecLayout LayoutTop.
Import ListNotations.
Open Scope Z_scope.

(** Full claim: for all arrays with the elements [img], whatever their layout, the outcome is
    the one of the other claims for [img].  True if the array is in row-major order. *)
Theorem C134_row_major_partial : forall asrt per g s a img, holds a img -> c_order a ->
  clusters_in asrt a per = clusters asrt (m_shape a) img per /\
  add_image_in asrt g s a = add_image asrt g s (m_shape a) img /\
  (forall nr nc data, same_outcome (m_shape a) (labels_rename_in asrt false a nr nc data)
                        (labels_rename asrt img nr nc data)) /\
  same_outcome (m_shape a) (labels_prune_in asrt false a) (labels_prune asrt img) /\
  (forall order, same_outcome (m_shape a) (labels_reorder_in asrt false a order)
                   (labels_reorder asrt img order)) /\
  (forall b y, holds b y -> m_shape b = m_shape a -> c_order b ->
     labels_map_in a b = labels_map img y).
Proof. exact row_major_all. Qed.
Print Assumptions C134_row_major_partial.

(** [clusters] with assertions (the Python module as built by default): the clusters of the
    image, or an exception if the array is not in row-major order. *)
Theorem C134_clusters_checked : forall a img per, holds a img ->
  c_order a /\ clusters_in true a per = clusters true (m_shape a) img per \/
  ~ c_order a /\ clusters_in true a per = Throw.
Proof. exact clusters_checked. Qed.
Print Assumptions C134_clusters_checked.

(** [labels_sizes]: right for every array without gaps, in any order. *)
Theorem C134_sizes_partial : forall a img names, holds a img -> dense a ->
  labels_sizes_in a = Ok (labels_sizes img) /\
  labels_sizes_names_in a names = Ok (labels_sizes_names img names).
Proof. exact sizes_dense. Qed.
Print Assumptions C134_sizes_partial.

(** [labels_map]: right for two arrays of the same layout without gaps, if the second is a
    relabelling of the first. *)
Theorem C134_map_partial : forall a b x y, holds a x -> holds b y -> m_shape b = m_shape a ->
  dense a -> (forall p, pixel (m_shape a) p -> place_of b p = place_of a p) ->
  (forall p q, pixel (m_shape a) p -> pixel (m_shape a) q -> zn x p = zn x q -> zn y p = zn y q) ->
  labels_map_in a b = labels_map x y.
Proof. exact map_same_layout. Qed.
Print Assumptions C134_map_partial.

(** C++ containers that are column-major by their type: the label functions are right. *)
Theorem C134_column_major : forall asrt a img, holds a img -> f_order a ->
  (forall nr nc data, same_outcome (m_shape a) (labels_rename_in asrt true a nr nc data)
                        (labels_rename asrt img nr nc data)) /\
  same_outcome (m_shape a) (labels_prune_in asrt true a) (labels_prune asrt img) /\
  (forall order, same_outcome (m_shape a) (labels_reorder_in asrt true a order)
                   (labels_reorder asrt img order)).
Proof. exact column_major_all. Qed.
Print Assumptions C134_column_major.

(** What is returned for an array without gaps that is not in row-major order (Python, or C++
    with a dynamic layout): the outcome for the elements in the order of memory, so the result
    for pixel [p] is found at pixel [place_of a p]. *)
Theorem C134_order_of_memory : forall asrt a img, holds a img -> dense a ->
  exists mem, lenZ mem = lenZ img /\
    (forall p, pixel (m_shape a) p -> zn mem (place_of a p) = zn img p) /\
    (forall per, clusters_in false a per = clusters false (m_shape a) mem per) /\
    (forall g s, add_image_in asrt g s a = add_image asrt g s (m_shape a) mem) /\
    (forall nr nc data, same_outcome (m_shape a) (labels_rename_in asrt false a nr nc data)
                          (labels_rename asrt mem nr nc data)) /\
    same_outcome (m_shape a) (labels_prune_in asrt false a) (labels_prune asrt mem) /\
    (forall order, same_outcome (m_shape a) (labels_reorder_in asrt false a order)
                     (labels_reorder asrt mem order)).
Proof. exact dynamic_all. Qed.
Print Assumptions C134_order_of_memory.

(** A Fortran-ordered image of labels: pruned, renamed and reordered labels end up at other
    pixels, also with assertions. *)
Theorem C134_labels_refuted : exists a img, holds a img /\ f_order a /\
  (exists r l, labels_prune_in true false a = Ok r /\ holds r l /\ labels_prune true img <> Ok l) /\
  (exists rows r l, labels_rename_in true false a (lenZ rows) 2 (table rows) = Ok r /\ holds r l /\
     labels_rename true img (lenZ rows) 2 (table rows) <> Ok l) /\
  (exists order r l, labels_reorder_in true false a order = Ok r /\ holds r l /\
     labels_reorder true img order <> Ok l).
Proof. exact labels_wrong. Qed.
Print Assumptions C134_labels_refuted.

(** The map from an image of labels to the same image in the other order is not the
    identity. *)
Theorem C134_map_refuted : exists a b img, holds a img /\ holds b img /\ m_shape b = m_shape a /\
  c_order a /\ f_order b /\ exists m, labels_map_in a b = Ok m /\ In (4, 0) m.
Proof. exact map_wrong. Qed.
Print Assumptions C134_map_refuted.

(** [add_image] of a Fortran-ordered image, also with assertions: a pixel of the image is not
    labelled, a pixel of the background is. *)
Theorem C134_add_image_refuted : exists g a img s p q, holds a img /\ f_order a /\
  make_default (m_shape a) true = Ok g /\ add_image_in true g (init g) a = Ok s /\
  pixel (m_shape a) p /\ zn img p <> 0 /\ zn (c_label s) p = 0 /\
  pixel (m_shape a) q /\ zn img q = 0 /\ zn (c_label s) q <> 0.
Proof. exact add_image_wrong. Qed.
Print Assumptions C134_add_image_refuted.

(** The same for [clusters] without assertions. *)
Theorem C134_clusters_refuted : exists a img l p q, holds a img /\ f_order a /\
  clusters_in false a true = Ok l /\
  pixel (m_shape a) p /\ zn img p <> 0 /\ zn l p = 0 /\
  pixel (m_shape a) q /\ zn img q = 0 /\ zn l q <> 0.
Proof. exact clusters_wrong. Qed.
Print Assumptions C134_clusters_refuted.

(** Views with gaps: the sizes of other elements; a reversed view: memory outside the array. *)
Theorem C134_gaps_refuted :
  (exists a img, holds a img /\ labels_sizes_in a <> Ok (labels_sizes img) /\
     exists m, labels_sizes_in a = Ok m) /\
  (exists a img, holds a img /\ labels_sizes_in a = UB).
Proof. exact gaps_wrong. Qed.
Print Assumptions C134_gaps_refuted.

(** Concrete arrays: one picture in the two orders. *)
Example C134_case :
  holds picture_c picture /\ c_order picture_c /\ holds picture_f picture /\ f_order picture_f /\
  dense picture_f /\ m_block picture_f <> m_block picture_c /\
  clusters_in true picture_c true = Ok [1; 0; 1; 0; 0; 1] /\
  clusters_in true picture_f true = Throw /\
  labels_sizes_in picture_f = Ok [(0, 3); (4, 2); (7, 1)].
Proof.
  destruct picture_c_holds as [A B]. destruct picture_f_holds as [C D].
  repeat (split; [auto; fail|]). split; [apply f_dense; [apply C|auto]|].
  split; [discriminate|]. vm_compute. auto.
Qed.
