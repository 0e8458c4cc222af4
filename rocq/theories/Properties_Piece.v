(** * Properties_Piece: C123

    See properties.jsonl for the English statement; the specification is in SpecCluster.v,
    SpecDilate.v and SpecPiece.v. *)

From Coq Require Import ZArith List Bool Lia.
From Verif Require Import Base Cluster SpecCluster Dilate SpecDilate SpecPiece PieceTop.
Import ListNotations.
Open Scope Z_scope.

(** ** C123 *)

(** In an image that is not periodic, a label that is in one piece stays in one piece, whatever
    the kernel, the number of iterations of every label and the other labels; pixels are
    adjacent here if the kernel leads from the one to the other. *)
Theorem C123_labels_partial : forall asrt shape f ks kv iterations (adj : Z -> Z -> Prop),
  dilatable false shape f ks kv iterations ->
  (forall p q, kernel_step false shape ks kv p q -> p <> q -> adj p q /\ adj q p) ->
  exists ret, dilate asrt shape f ks kv iterations false = Ok ret /\
    forall l, l <> 0 -> in_one_piece adj shape f l -> in_one_piece adj shape ret l.
Proof. exact piece_labels. Qed.
Print Assumptions C123_labels_partial.

(** With the default kernel in one or two dimensions: adjacent are pixels that share a face. *)
Theorem C123_labels_default_partial : forall asrt shape f iterations,
  (1 <= length shape <= 2)%nat -> image shape f ->
  iterations <> [] -> (forall n, In n iterations -> 0 <= n) -> (forall l, In l f -> 0 <= l < lenZ iterations) ->
  exists ret, dilate_default asrt shape f iterations false = Ok ret /\
    forall l, l <> 0 -> in_one_piece (face_neighbour false shape) shape f l -> in_one_piece (face_neighbour false shape) shape ret l.
Proof. exact piece_default. Qed.
Print Assumptions C123_labels_default_partial.

(** In three dimensions: pixels that share a face or an edge. *)
Theorem C123_labels_default3_partial : forall asrt shape f iterations,
  length shape = 3%nat -> image shape f ->
  iterations <> [] -> (forall n, In n iterations -> 0 <= n) -> (forall l, In l f -> 0 <= l < lenZ iterations) ->
  exists ret, dilate_default asrt shape f iterations false = Ok ret /\
    forall l, l <> 0 -> in_one_piece (face_or_edge false shape) shape f l -> in_one_piece (face_or_edge false shape) shape ret l.
Proof. exact piece_default3. Qed.
Print Assumptions C123_labels_default3_partial.

(** In a periodic image a label can come apart. *)
Theorem C123_labels_periodic_refuted : exists shape f iterations ret l,
  image shape f /\ dilate_default true shape f iterations true = Ok ret /\ l <> 0 /\
  in_one_piece (face_neighbour true shape) shape f l /\ ~ in_one_piece (face_neighbour true shape) shape ret l.
Proof. exact piece_periodic. Qed.
Print Assumptions C123_labels_periodic_refuted.

(** And in three dimensions, if only pixels that share a face count as adjacent. *)
Theorem C123_labels_faces_refuted : exists shape f iterations ret l,
  image shape f /\ dilate_default true shape f iterations false = Ok ret /\ l <> 0 /\
  in_one_piece (face_neighbour false shape) shape f l /\ ~ in_one_piece (face_neighbour false shape) shape ret l.
Proof. exact piece_faces. Qed.
Print Assumptions C123_labels_faces_refuted.

(** The foreground, periodic or not, in one, two or three dimensions: pixels that were in one
    cluster are in one cluster after dilation; every cluster after dilation contains one from
    before; so there are no more clusters than before. *)
Theorem C123_foreground : forall asrt shape f n per,
  good_shape shape -> (length shape <= 3)%nat -> image shape f -> (forall l, In l f -> 0 <= l < 2 ^ 62) -> 0 <= n ->
  exists ret lab lab' m m',
    dilate_default_n asrt shape f n per = Ok ret /\ clusters asrt shape f per = Ok lab /\ clusters asrt shape ret per = Ok lab' /\
    (forall p q, pixel shape p -> pixel shape q -> zn lab p <> 0 -> zn lab p = zn lab q -> zn lab' p <> 0 /\ zn lab' p = zn lab' q) /\
    (forall q, pixel shape q -> zn lab' q <> 0 -> exists p, pixel shape p /\ zn lab p <> 0 /\ zn lab' p = zn lab' q) /\
    (forall v, 1 <= v <= m <-> v <> 0 /\ exists p, pixel shape p /\ zn lab p = v) /\
    (forall v, 1 <= v <= m' <-> v <> 0 /\ exists p, pixel shape p /\ zn lab' p = v) /\ 0 <= m' <= m.
Proof. exact piece_foreground. Qed.
Print Assumptions C123_foreground.

(** Three clusters that become one. *)
Example C123_case :
  let shape := [3;5] in let f := [1;0;0;0;2; 1;0;0;0;0; 0;0;3;3;0] in
  good_shape shape /\ image shape f /\ (forall l, In l f -> 0 <= l < 2 ^ 62) /\ (forall l, In l f -> 0 <= l < lenZ [0;2;1;0]) /\
  clusters true shape f false = Ok f /\
  dilate_default_n true shape f 1 false = Ok [1;1;0;2;2; 1;1;3;3;2; 1;3;3;3;3] /\
  clusters true shape [1;1;0;2;2; 1;1;3;3;2; 1;3;3;3;3] false = Ok [1;1;0;1;1; 1;1;1;1;1; 1;1;1;1;1] /\
  dilate_default true shape f [0;2;1;0] false = Ok [1;1;1;2;2; 1;1;1;0;2; 1;1;3;3;0].
Proof.
  cbv zeta. split; [split; [discriminate|]; split; [repeat constructor; lia|reflexivity]|]. split; [split; [repeat constructor; lia|reflexivity]|].
  split; [intros l IN; cbn in IN; intuition lia|]. split; [intros l IN; cbn in IN; unfold lenZ; cbn; intuition lia|]. do 3 (split; [vm_compute; reflexivity|]). vm_compute; reflexivity.
Qed.
