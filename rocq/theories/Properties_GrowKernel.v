(** * Properties_GrowKernel: C65 for labellers with kernels

    Statements only. *)

From Coq Require Import ZArith List Bool Lia.
From Verif Require Import Base Cluster SpecCluster ClusterGeom GrowKernel.
Import ListNotations.
Open Scope Z_scope.

(** ** C65 More pixels, a larger kernel or a periodic box never split a cluster, after any histories *)
Theorem C65_labellers : forall asrt shape per per' ks kv ks' kv' ops ops', good_shape shape ->
  good_kernel shape ks kv -> kernel_symmetric ks kv -> offsets_in_range per shape (set_offset ks kv) ->
  good_kernel shape ks' kv' -> kernel_symmetric ks' kv' -> offsets_in_range per' shape (set_offset ks' kv') ->
  Forall (legal shape) ops -> Forall (legal shape) ops' ->
  (per = true -> per' = true) -> (forall d, set_offset ks kv d -> set_offset ks' kv' d) -> (forall p, added ops p -> added ops' p) ->
  exists g s outs g' s' outs', make_kernel asrt shape per ks kv = Ok g /\ run asrt g ops = Ok (s, outs) /\
    make_kernel asrt shape per' ks' kv' = Ok g' /\ run asrt g' ops' = Ok (s', outs') /\
    forall p q, pixel shape p -> pixel shape q -> added ops p -> added ops q -> zn (c_label s) p = zn (c_label s) q -> zn (c_label s') p = zn (c_label s') q.
Proof. exact labellers_grow. Qed.
Print Assumptions C65_labellers.

(** Kernels of three and of five pixels on a row of six. *)
Example C65_labellers_case :
  let ks := [3] in let kv := [1;1;1] in let ks' := [5] in let kv' := [1;1;1;1;1] in
  let ops := [AddPoints [0; 1; 3]] in let ops' := [AddPoints [3]; AddSequence [1; 0]] in
  good_shape [6] /\ good_kernel [6] ks kv /\ kernel_symmetric ks kv /\ offsets_in_range false [6] (set_offset ks kv) /\
  good_kernel [6] ks' kv' /\ kernel_symmetric ks' kv' /\ offsets_in_range true [6] (set_offset ks' kv') /\
  Forall (legal [6]) ops /\ Forall (legal [6]) ops' /\
  (forall d, set_offset ks kv d -> set_offset ks' kv' d) /\ (forall p, added ops p -> added ops' p) /\
  exists g s outs g' s' outs', make_kernel true [6] false ks kv = Ok g /\ run true g ops = Ok (s, outs) /\
    make_kernel true [6] true ks' kv' = Ok g' /\ run true g' ops' = Ok (s', outs') /\
    c_label s = [1;1;0;2;0;0] /\ c_label s' = [1;1;0;1;0;0].
Proof.
  cbv zeta.
  assert (O3 : forall d, set_offset [3] [1;1;1] d <-> exists t, d = [t] /\ -1 <= t <= 1).
  { intro d. split.
    - intros (p & Hp & _ & M). rewrite coords1 in M. destruct d as [|t [|? ?]]; cbn [moved centre map] in M; try tauto. exists t. unfold pixel in Hp. cbn in Hp.
      split; [reflexivity|]. change (3 / 2) with 1 in M. lia.
    - intros (t & -> & Ht). exists (1 + t). split; [unfold pixel; cbn [zprod fold_right]; lia|]. split.
      + assert (C : t = -1 \/ t = 0 \/ t = 1) by lia. destruct C as [-> |[-> | ->]]; discriminate.
      + rewrite coords1. cbn [moved centre map]. split; [reflexivity|exact I]. }
  assert (O5 : forall d, set_offset [5] [1;1;1;1;1] d <-> exists t, d = [t] /\ -2 <= t <= 2).
  { intro d. split.
    - intros (p & Hp & _ & M). rewrite coords1 in M. destruct d as [|t [|? ?]]; cbn [moved centre map] in M; try tauto. exists t. unfold pixel in Hp. cbn in Hp.
      split; [reflexivity|]. change (5 / 2) with 2 in M. lia.
    - intros (t & -> & Ht). exists (2 + t). split; [unfold pixel; cbn [zprod fold_right]; lia|]. split.
      + assert (C : t = -2 \/ t = -1 \/ t = 0 \/ t = 1 \/ t = 2) by lia. destruct C as [-> |[-> |[-> |[-> | ->]]]]; discriminate.
      + rewrite coords1. cbn [moved centre map]. split; [reflexivity|exact I]. }
  split. { split; [discriminate|]. split; [repeat constructor; lia|reflexivity]. }
  split. { split; [reflexivity|]. split; [repeat constructor; unfold big; lia|]. split; [reflexivity|]. intros p _ H. rewrite coords1 in H. injection H as ->. reflexivity. }
  split. { intros d H. apply O3 in H. destruct H as (t & -> & Ht). apply O3. exists (- t). split; [reflexivity|lia]. }
  split. { cbn. discriminate. }
  split. { split; [reflexivity|]. split; [repeat constructor; unfold big; lia|]. split; [reflexivity|]. intros p _ H. rewrite coords1 in H. injection H as ->. reflexivity. }
  split. { intros d H. apply O5 in H. destruct H as (t & -> & Ht). apply O5. exists (- t). split; [reflexivity|lia]. }
  split. { cbn. intros _ d0 H. apply O5 in H. destruct H as (t & E & Ht). injection E as ->. lia. }
  split. { constructor; [|constructor]. cbn. intros p H. unfold pixel. cbn. lia. }
  split. { constructor; [|constructor; [|constructor]]; cbn; [|split; [discriminate|]]; intros p H; unfold pixel; cbn; lia. }
  split. { intros d H. apply O3 in H. destruct H as (t & -> & Ht). apply O5. exists t. split; [reflexivity|lia]. }
  split. { intros p H. cbn in *. intuition. }
  do 6 eexists. split; [reflexivity|]. split; [vm_compute; reflexivity|]. split; [reflexivity|]. split; [vm_compute; reflexivity|]. split; reflexivity.
Qed.
