(** * Properties_LabelLaws: C99

    The label utilities together.  Statements only; [same_partition], [measured_alike] are
    defined in SpecLabelLaws. *)

From Coq Require Import ZArith List Bool Lia.
From Verif Require Import Base Cluster Labels Center SpecCluster SpecLabels SpecLabelLaws LabelLaws.
Import ListNotations.
Open Scope Z_scope.

(** ** C99 Names of labels do not matter to what is measured

    In two images that divide the pixels in the same way, the labels of a pixel have the same
    size and center. *)
Theorem C99_same_partition_same_measures :
  forall a b ps, same_partition a b -> (forall p, In p ps -> 0 <= p < lenZ a) ->
  measured_alike a (map (zn a) ps) b (map (zn b) ps).
Proof. exact partition_alike. Qed.
Print Assumptions C99_same_partition_same_measures.

(** [labels_prune] gives such an image. *)
Theorem C99_prune_keeps_the_partition :
  forall asrt labels, exists ret, labels_prune asrt labels = Ok ret /\ same_partition labels ret.
Proof. exact prune_partition. Qed.
Print Assumptions C99_prune_keeps_the_partition.

(** After [labels_reorder] the labels 0, 1, ... have the sizes and centers of the labels in
    [order]: sorted by size if [order] is. *)
Theorem C99_reorder_sorts :
  forall asrt labels order, order <> [] -> NoDup order ->
  (forall x, In x labels <-> In x order) -> (forall x, In x labels -> 0 <= x) ->
  exists ret, labels_reorder asrt labels order = Ok ret /\ measured_alike ret (zseq 0 (length order)) labels order.
Proof. exact reorder_measures. Qed.
Print Assumptions C99_reorder_sorts.

(** Renaming twice is renaming once with the composed table. *)
Theorem C99_renaming_composes :
  forall asrt labels rows rows' rows'',
  (forall k, In k labels -> exists u v, first_row rows k u /\ first_row rows' u v /\ first_row rows'' k v) ->
  exists mid ret, labels_rename asrt labels (lenZ rows) 2 (table rows) = Ok mid /\
    labels_rename asrt mid (lenZ rows') 2 (table rows') = Ok ret /\
    labels_rename asrt labels (lenZ rows'') 2 (table rows'') = Ok ret.
Proof. exact rename_composes. Qed.
Print Assumptions C99_renaming_composes.

(** A labeller, after any history, differs from [clusters] of the pixels added by the names of
    the labels only, and [labels_map] with [labels_rename] translates them. *)
Theorem C99_labeller_is_clusters_but_for_names :
  forall asrt shape per ops img, good_shape shape -> (length shape <= 3)%nat -> Forall (legal shape) ops ->
  lenZ img = zprod shape -> (forall p, pixel shape p -> (zn img p <> 0 <-> added ops p)) ->
  exists g s outs lab rows, make_default shape per = Ok g /\ run asrt g ops = Ok (s, outs) /\ clusters asrt shape img per = Ok lab /\
    same_partition (c_label s) lab /\ labels_map (c_label s) lab = Ok rows /\
    labels_rename asrt (c_label s) (lenZ rows) 2 (table rows) = Ok lab.
Proof. exact labeller_clusters. Qed.
Print Assumptions C99_labeller_is_clusters_but_for_names.

Example C99_case :
  same_partition [4; 0; 4; 7] [1; 3; 1; 0] /\
  labels_sizes_names [4; 0; 4; 7] [4; 7] = [2; 1] /\ labels_sizes_names [1; 3; 1; 0] [1; 0] = [2; 1] /\
  labels_reorder true [0; 4; 4; 2] [4; 0; 2] = Ok [1; 0; 0; 2] /\
  labels_sizes_names [1; 0; 0; 2] [0; 1; 2] = [2; 1; 1] /\ labels_sizes_names [0; 4; 4; 2] [4; 0; 2] = [2; 1; 1] /\
  (forall k, In k [5; 6; 5] -> exists u v, first_row [(5, 1); (6, 2)] k u /\ first_row [(2, 8); (1, 9); (1, 0)] u v /\ first_row [(5, 9); (6, 8)] k v) /\
  Forall (legal [4]) [AddPoints [3; 0]; AddPoints [1]] /\
  (forall p, pixel [4] p -> (zn [1; 1; 0; 1] p <> 0 <-> added [AddPoints [3; 0]; AddPoints [1]] p)) /\
  (exists g s outs, make_default [4] false = Ok g /\ run true g [AddPoints [3; 0]; AddPoints [1]] = Ok (s, outs) /\ c_label s = [2; 2; 0; 1]) /\
  clusters true [4] [1; 1; 0; 1] false = Ok [1; 1; 0; 2].
Proof.
  split. { split; [reflexivity|]. intros p q Hp Hq. change (lenZ [4; 0; 4; 7]) with 4 in *.
    assert (P : p = 0 \/ p = 1 \/ p = 2 \/ p = 3) by lia. assert (Q : q = 0 \/ q = 1 \/ q = 2 \/ q = 3) by lia.
    decompose [or] P; decompose [or] Q; subst; vm_compute; split; congruence. }
  do 5 (split; [vm_compute; reflexivity|]).
  split. { intros k [<-|[<-|[<-|[]]]].
    - exists 1, 9. split; [exists [], [(6, 2)]; split; [reflexivity|intros w []]|]. split; [|exists [], [(6, 8)]; split; [reflexivity|intros w []]].
      exists [(2, 8)], [(1, 0)]. split; [reflexivity|]. intros w [E|[]]. discriminate.
    - exists 2, 8. split; [exists [(5, 1)], []; split; [reflexivity|intros w [E|[]]; discriminate]|].
      split; [exists [], [(1, 9); (1, 0)]; split; [reflexivity|intros w []]|]. exists [(5, 9)], []. split; [reflexivity|]. intros w [E|[]]. discriminate.
    - exists 1, 9. split; [exists [], [(6, 2)]; split; [reflexivity|intros w []]|]. split; [|exists [], [(6, 8)]; split; [reflexivity|intros w []]].
      exists [(2, 8)], [(1, 0)]. split; [reflexivity|]. intros w [E|[]]. discriminate. }
  split; [do 2 (apply Forall_cons; [cbn [legal]; unfold pixel; simpl; intros; lia|]); apply Forall_nil|].
  split. { intros p Hp. unfold pixel in Hp. cbn [zprod] in Hp. cbn. assert (P : p = 0 \/ p = 1 \/ p = 2 \/ p = 3) by lia.
    decompose [or] P; subst; vm_compute; intuition congruence. }
  split; [do 3 eexists; split; [vm_compute; reflexivity|]; split; vm_compute; reflexivity|]. vm_compute. reflexivity.
Qed.
