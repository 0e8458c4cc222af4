(** * Properties_OneCluster: C154

    C2 is S2 exactly if there is one cluster.  Statements only; [whole] and [connected] are defined in
    SpecOneCluster, [indicator] in SpecAlgebra. *)

From Coq Require Import ZArith QArith Qcanon List Bool Lia.
From Verif Require Import Base Ensemble SpecEnsemble SpecAlgebra Cluster SpecCluster SpecOneCluster OneCluster.
Import ListNotations.
Open Scope Z_scope.

(** ** C154 In a region that holds every offset, C2 of the clusters is S2 of the phase everywhere exactly if
    the phase is connected *)
Theorem C154_one_cluster : forall asrt per var shape f, shapes per (whole per shape) shape -> good_shape shape -> is_image shape f ->
  exists lab e e', clusters asrt shape (i_vals f) per = Ok lab /\
    fresh asrt (whole per shape) per var (CallC2 (mkimg shape lab) (mkimg shape lab) None) = Ok e /\
    fresh asrt (whole per shape) per var (CallS2 (indicator f) (indicator f) None) = Ok e' /\
    ((forall r, pixel (whole per shape) r -> result_at e r = result_at e' r) <-> connected per shape (i_vals f)).
Proof. exact one_cluster. Qed.
Print Assumptions C154_one_cluster.

(** Two pixels that share a corner are two clusters: C2 and S2 differ at the offset from one to the
    other.  With a third one there is one cluster, and they agree. *)
Example C154_case :
  shapes false [3; 3] [2; 2] /\ whole false [2; 2] = [3; 3] /\ good_shape [2; 2] /\ shapes true [3; 5] [3; 5] /\
  is_image [2; 2] (mkimg [2; 2] [1; 0; 0; 4]) /\ is_image [2; 2] (mkimg [2; 2] [1; 0; 2; 4]) /\
  clusters true [2; 2] [1; 0; 0; 4] false = Ok [1; 0; 0; 2] /\ clusters true [2; 2] [1; 0; 2; 4] false = Ok [1; 0; 1; 1] /\
  (exists e, fresh true [3; 3] false true (CallC2 (mkimg [2; 2] [1; 0; 0; 2]) (mkimg [2; 2] [1; 0; 0; 2]) None) = Ok e /\ data_first e = map zq [0;0;0; 0;2;0; 0;0;0]) /\
  (exists e, fresh true [3; 3] false true (CallS2 (indicator (mkimg [2; 2] [1; 0; 0; 4])) (indicator (mkimg [2; 2] [1; 0; 0; 4])) None) = Ok e /\ data_first e = map zq [1;0;0; 0;2;0; 0;0;1]) /\
  (exists e, fresh true [3; 3] false true (CallC2 (mkimg [2; 2] [1; 0; 1; 1]) (mkimg [2; 2] [1; 0; 1; 1]) None) = Ok e /\ data_first e = map zq [1;1;0; 1;3;1; 0;1;1]) /\
  (exists e, fresh true [3; 3] false true (CallS2 (indicator (mkimg [2; 2] [1; 0; 2; 4])) (indicator (mkimg [2; 2] [1; 0; 2; 4])) None) = Ok e /\ data_first e = map zq [1;1;0; 1;3;1; 0;1;1]).
Proof.
  split. { unfold shapes. split; [reflexivity|]. split; [cbn; lia|]. split; [repeat constructor; lia|]. split; [repeat constructor; lia|]. discriminate. }
  split; [reflexivity|]. split. { split; [discriminate|]. split; [repeat constructor; lia|reflexivity]. }
  split. { unfold shapes. split; [reflexivity|]. split; [cbn; lia|]. split; [repeat constructor; lia|]. split; [repeat constructor; lia|]. intros _. cbn. lia. }
  split; [split; reflexivity|]. split; [split; reflexivity|]. split; [vm_compute; reflexivity|]. split; [vm_compute; reflexivity|].
  repeat split; (eexists; split; [vm_compute; reflexivity|vm_compute; reflexivity]).
Qed.
