(** * Properties_LabellerOne: C142

    Definitions used in the statements: [SpecLabellerOne.v] (the effect of one pixel),
    [SpecCluster.v] (neighbours, legal calls, the number of clusters) and the model. *)

From Coq Require Import ZArith List Bool Lia.
From Verif Require Import Base Cluster SpecCluster SpecLabellerOne LabellerOne.
Import ListNotations.
Open Scope Z_scope.

(** ** C142 One more pixel *)

(** After any history, default kernel. *)
Theorem C142_one_pixel : forall asrt shape per ops p, good_shape shape -> (length shape <= 3)%nat -> Forall (legal shape) ops -> pixel shape p ->
  exists g s s' outs outs', make_default shape per = Ok g /\ run asrt g ops = Ok (s, outs) /\ run asrt g (ops ++ [AddPoints [p]]) = Ok (s', outs') /\
    adds_one (face_neighbour per shape p) shape p (c_label s) (c_label s').
Proof. exact default_one. Qed.
Print Assumptions C142_one_pixel.

(** Any kernel, symmetric or not. *)
Theorem C142_one_pixel_kernel : forall asrt shape per ks kv ops p, good_shape shape -> good_kernel shape ks kv -> offsets_in_range per shape (set_offset ks kv) ->
  Forall (legal shape) ops -> pixel shape p ->
  exists g s s' outs outs', make_kernel asrt shape per ks kv = Ok g /\ run asrt g ops = Ok (s, outs) /\ run asrt g (ops ++ [AddPoints [p]]) = Ok (s', outs') /\
    adds_one (kernel_neighbour per shape ks kv p) shape p (c_label s) (c_label s').
Proof. exact kernel_one. Qed.
Print Assumptions C142_one_pixel_kernel.

(** After a [prune] a pixel on its own gets the number of clusters plus one. *)
Theorem C142_next_label : forall asrt shape per ops p, good_shape shape -> (length shape <= 3)%nat -> Forall (legal shape) ops -> pixel shape p ->
  exists g s s' outs outs', make_default shape per = Ok g /\ run asrt g (ops ++ [Prune]) = Ok (s, outs) /\
    run asrt g (ops ++ [Prune; AddPoints [p]]) = Ok (s', outs') /\
    (zn (c_label s) p = 0 -> (forall q, face_neighbour per shape p q -> zn (c_label s) q = 0) ->
       zn (c_label s') p = Z.of_nat (nclusters (c_label s)) + 1).
Proof. exact default_next. Qed.
Print Assumptions C142_next_label.

Theorem C142_next_label_kernel : forall asrt shape per ks kv ops p, good_shape shape -> good_kernel shape ks kv -> offsets_in_range per shape (set_offset ks kv) ->
  Forall (legal shape) ops -> pixel shape p ->
  exists g s s' outs outs', make_kernel asrt shape per ks kv = Ok g /\ run asrt g (ops ++ [Prune]) = Ok (s, outs) /\
    run asrt g (ops ++ [Prune; AddPoints [p]]) = Ok (s', outs') /\
    (zn (c_label s) p = 0 -> (forall q, kernel_neighbour per shape ks kv p q -> zn (c_label s) q = 0) ->
       zn (c_label s') p = Z.of_nat (nclusters (c_label s)) + 1).
Proof. exact kernel_next. Qed.
Print Assumptions C142_next_label_kernel.

(** Three clusters; a pixel that joins two of them, and one on its own. *)
Example C142_case :
  let ops := [AddPoints [0; 2; 8]] in
  good_shape [3; 3] /\ Forall (legal [3; 3]) ops /\ pixel [3; 3] 1 /\ pixel [3; 3] 4 /\
  exists g s s' s'' outs outs' outs'', make_default [3; 3] false = Ok g /\ run true g ops = Ok (s, outs) /\
    run true g (ops ++ [AddPoints [1]]) = Ok (s', outs') /\ run true g (ops ++ [AddPoints [4]]) = Ok (s'', outs'') /\
    c_label s = [1; 0; 2; 0; 0; 0; 0; 0; 3] /\ c_label s' = [1; 1; 1; 0; 0; 0; 0; 0; 3] /\ c_label s'' = [1; 0; 2; 0; 4; 0; 0; 0; 3] /\
    nclusters (c_label s) = 3%nat /\ nclusters (c_label s') = 2%nat /\ nclusters (c_label s'') = 4%nat.
Proof.
  cbv zeta. split; [|split; [|split; [|split]]].
  - unfold good_shape. split; [discriminate|]. split; [repeat constructor; lia|reflexivity].
  - repeat apply Forall_cons; try apply Forall_nil. cbn [legal]. intros p H; unfold pixel; cbn in *; lia.
  - unfold pixel; cbn; lia.
  - unfold pixel; cbn; lia.
  - eexists _, _, _, _, _, _, _. split; [vm_compute; reflexivity|]. split; [vm_compute; reflexivity|]. split; [vm_compute; reflexivity|].
    split; [vm_compute; reflexivity|]. vm_compute. auto 10.
Qed.
