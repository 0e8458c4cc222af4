(** * GrowKernel: proof of C65 for labellers with kernels *)

From Coq Require Import ZArith List Bool Lia.
From Verif Require Import Base BaseLemmas Cluster Kernel SpecCluster ClusterAbs ClusterMain ClusterAny ClusterTop KernelProofs ClusterGeom ClusterMore DerivedCluster DerivedDilate.
Import ListNotations.
Open Scope Z_scope.

Lemma kernel_neighbour_grow : forall per per' shape ks kv ks' kv' p q, good_shape shape -> (per = true -> per' = true) ->
  (forall d, set_offset ks kv d -> set_offset ks' kv' d) ->
  kernel_neighbour per shape ks kv p q -> kernel_neighbour per' shape ks' kv' p q.
Proof.
  intros per per' shape ks kv ks' kv' p q HS HP HK (P & Q & d & Hd & M). split; [exact P|]. split; [exact Q|].
  exists d. split; [apply HK; exact Hd|]. destruct per, per'; try exact M; [discriminate HP; reflexivity|].
  apply moved_weaken; [|exact M]. apply coords_inside; [exact (good_pos shape p HS P)|exact Q].
Qed.

Theorem labellers_grow : forall asrt shape per per' ks kv ks' kv' ops ops', good_shape shape ->
  good_kernel shape ks kv -> kernel_symmetric ks kv -> offsets_in_range per shape (set_offset ks kv) ->
  good_kernel shape ks' kv' -> kernel_symmetric ks' kv' -> offsets_in_range per' shape (set_offset ks' kv') ->
  Forall (legal shape) ops -> Forall (legal shape) ops' ->
  (per = true -> per' = true) -> (forall d, set_offset ks kv d -> set_offset ks' kv' d) -> (forall p, added ops p -> added ops' p) ->
  exists g s outs g' s' outs', make_kernel asrt shape per ks kv = Ok g /\ run asrt g ops = Ok (s, outs) /\
    make_kernel asrt shape per' ks' kv' = Ok g' /\ run asrt g' ops' = Ok (s', outs') /\
    forall p q, pixel shape p -> pixel shape q -> added ops p -> added ops q -> zn (c_label s) p = zn (c_label s) q -> zn (c_label s') p = zn (c_label s') q.
Proof.
  intros asrt shape per per' ks kv ks' kv' ops ops' HS GK SK RK GK' SK' RK' HL HL' HP HK HA.
  destruct (run_partition_kernel asrt shape per ks kv ops HS GK SK RK HL) as (g & s & outs & E & R & C).
  destruct (run_partition_kernel asrt shape per' ks' kv' ops' HS GK' SK' RK' HL') as (g' & s' & outs' & E' & R' & C').
  exists g, s, outs, g', s', outs'. do 4 (split; [assumption|]). intros p q Hp Hq Ap Aq EQ.
  apply C'; auto. apply C in EQ; auto. eapply linked_mono; [| |exact EQ].
  - intros x y _ _. apply kernel_neighbour_grow; auto.
  - intros x [H1 H2]. split; auto.
Qed.
