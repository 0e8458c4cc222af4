(** * Properties_LabellerPrune: C141

    Definitions used in the statements: [SpecLabellerPrune.v] (the calls other than [prune] and
    what they return), [SpecCluster.v] (legal calls, pixels) and the model. *)

From Coq Require Import ZArith List Bool Lia.
From Verif Require Import Base Cluster SpecCluster SpecLabellerPrune LabellerPruneTop.
Import ListNotations.
Open Scope Z_scope.

(** ** C141 prune() may be called at any moment *)

(** Two histories with the same calls but for [prune]: the other calls return the same lists, the
    same pixels are empty, the labels are in the same order (so the clusters are the same), and
    after one more [prune] the two labellers are the same. *)
Theorem C141_prune_at_any_moment : forall asrt shape per ops ops', good_shape shape -> (length shape <= 3)%nat ->
  Forall (legal shape) ops -> Forall (legal shape) ops' -> other_calls ops = other_calls ops' ->
  exists g s s' outs outs' t, make_default shape per = Ok g /\ run asrt g ops = Ok (s, outs) /\ run asrt g ops' = Ok (s', outs') /\
    returned ops outs = returned ops' outs' /\
    (forall p, pixel shape p -> (zn (c_label s) p = 0 <-> zn (c_label s') p = 0)) /\
    (forall p q, pixel shape p -> pixel shape q -> (zn (c_label s) p < zn (c_label s) q <-> zn (c_label s') p < zn (c_label s') q)) /\
    prune s = Ok t /\ prune s' = Ok t.
Proof. exact default_but_prunes. Qed.
Print Assumptions C141_prune_at_any_moment.

Theorem C141_prune_at_any_moment_kernel : forall asrt shape per ks kv ops ops', good_shape shape -> good_kernel shape ks kv ->
  Forall (legal shape) ops -> Forall (legal shape) ops' -> other_calls ops = other_calls ops' ->
  exists g s s' outs outs' t, make_kernel asrt shape per ks kv = Ok g /\ run asrt g ops = Ok (s, outs) /\ run asrt g ops' = Ok (s', outs') /\
    returned ops outs = returned ops' outs' /\
    (forall p, pixel shape p -> (zn (c_label s) p = 0 <-> zn (c_label s') p = 0)) /\
    (forall p q, pixel shape p -> pixel shape q -> (zn (c_label s) p < zn (c_label s) q <-> zn (c_label s') p < zn (c_label s') q)) /\
    prune s = Ok t /\ prune s' = Ok t.
Proof. exact kernel_but_prunes. Qed.
Print Assumptions C141_prune_at_any_moment_kernel.

(** A label disappears in a merge; with a [prune] after it the next cluster gets that label, without
    it a larger one. *)
Example C141_case :
  let ops := [AddPoints [0; 2; 1]; Prune; AddPoints [4]; AddSequence [6; 5; 1]] in
  let ops' := [AddPoints [0; 2; 1]; AddPoints [4]; AddSequence [6; 5; 1]] in
  good_shape [7] /\ Forall (legal [7]) ops /\ Forall (legal [7]) ops' /\ other_calls ops = other_calls ops' /\
  exists g s s' outs outs', make_default [7] false = Ok g /\ run true g ops = Ok (s, outs) /\ run true g ops' = Ok (s', outs') /\
    outs = [[]; []; []; [0; 1; 2; 3]] /\ outs' = [[]; []; [0; 1; 2; 3]] /\
    c_label s = [1; 1; 1; 0; 2; 2; 2] /\ c_label s' = [1; 1; 1; 0; 3; 3; 3].
Proof.
  cbv zeta. split; [|split; [|split; [|split; [reflexivity|]]]].
  - unfold good_shape. split; [discriminate|]. split; [repeat constructor; lia|reflexivity].
  - repeat apply Forall_cons; try apply Forall_nil; cbn [legal]; auto; try (split; [discriminate|]);
      intros p H; unfold pixel; cbn in *; lia.
  - repeat apply Forall_cons; try apply Forall_nil; cbn [legal]; auto; try (split; [discriminate|]);
      intros p H; unfold pixel; cbn in *; lia.
  - eexists _, _, _, _, _. split; [vm_compute; reflexivity|]. split; [vm_compute; reflexivity|]. split; [vm_compute; reflexivity|].
    vm_compute. auto 10.
Qed.
