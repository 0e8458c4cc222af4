(** * EnsembleRefute2: witnesses for C72 *)

From Coq Require Import ZArith QArith Qcanon List Bool Lia.
From Verif Require Import Base SpecCluster SpecDilate Ensemble SpecEnsemble SpecAlgebra.
Import ListNotations.
Open Scope Z_scope.

Definition ramp : img Qc := mkimg [3] (map zq [1; 2; 4]).
Definition one_masked : img Z := mkimg [3] [0; 0; 1].
Definition none_masked : img Z := mkimg [3] [0; 0; 0].

Lemma witness_shapes : shapes true [3] [3] /\ is_image [3] ramp /\ masks_of [3] (Some (one_masked, none_masked)) /\ mask_of [3] (Some one_masked).
Proof.
  split. { unfold shapes. split; [reflexivity|]. split; [cbn; lia|]. split; [repeat constructor; lia|]. split; [repeat constructor; lia|].
    intros _. vm_compute. intuition discriminate. }
  split; [split; reflexivity|]. split; [split|]; (split; [split; reflexivity|cbn; intros; lia]).
Qed.

Lemma exchange_refuted : exists roi shape f g m e e' r r',
  shapes true roi shape /\ is_image shape f /\ is_image shape g /\ masks_of shape m /\
  fresh true roi true true (CallS2 f g m) = Ok e /\ fresh true roi true true (CallS2 g f (exchanged m)) = Ok e' /\
  pixel roi r /\ pixel roi r' /\ offset roi r' = opposite (offset roi r) /\
  norm_at e r <> norm_at e' r' /\ result_at e r <> result_at e' r'.
Proof.
  destruct witness_shapes as (H1 & H2 & H3 & _).
  exists [3], [3], ramp, ramp, (Some (one_masked, none_masked)). eexists. eexists. exists 2, 0.
  split; [exact H1|]. split; [exact H2|]. split; [exact H2|]. split; [exact H3|].
  split; [vm_compute; reflexivity|]. split; [vm_compute; reflexivity|].
  split; [unfold pixel; cbn; lia|]. split; [unfold pixel; cbn; lia|]. split; [reflexivity|].
  split; vm_compute; discriminate.
Qed.

Lemma hh_exchange_refuted : exists roi shape f m e r r',
  shapes true roi shape /\ is_image shape f /\ mask_of shape m /\
  fresh true roi true true (CallHH f m) = Ok e /\
  pixel roi r /\ pixel roi r' /\ offset roi r' = opposite (offset roi r) /\
  norm_at e r <> norm_at e r' /\ result_at e r <> result_at e r'.
Proof.
  destruct witness_shapes as (H1 & H2 & _ & H3).
  exists [3], [3], ramp, (Some one_masked). eexists. exists 2, 0.
  split; [exact H1|]. split; [exact H2|]. split; [exact H3|].
  split; [vm_compute; reflexivity|].
  split; [unfold pixel; cbn; lia|]. split; [unfold pixel; cbn; lia|]. split; [reflexivity|].
  split; vm_compute; discriminate.
Qed.
