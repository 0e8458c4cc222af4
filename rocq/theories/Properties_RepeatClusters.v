(** * Properties_RepeatClusters: C158

    Where S2 says that a periodic image repeats, its clusters do.  Statements only; [rolls] is defined in
    SpecSymmetry, [indicator] in SpecAlgebra. *)

From Coq Require Import ZArith QArith Qcanon List Bool Lia.
From Verif Require Import Base Ensemble SpecEnsemble SpecAlgebra SpecSymmetry RepeatClusters Cluster SpecCluster.
Import ListNotations.
Open Scope Z_scope.

(** ** C158 If S2 of the phase has at an offset the value of its centre, then that displacement takes clusters
    to clusters *)
Theorem C158_clusters_repeat : forall asrt var roi shape f, shapes true roi shape -> good_shape shape -> is_image shape f ->
  exists lab e, clusters asrt shape (i_vals f) true = Ok lab /\
    fresh asrt roi true var (CallS2 (indicator f) (indicator f) None) = Ok e /\
    forall r r0, pixel roi r -> pixel roi r0 -> zero_offset (offset roi r0) -> result_at e r = result_at e r0 ->
      forall p q p' q', rolls (offset roi r) shape p p' -> rolls (offset roi r) shape q q' ->
        (zn lab p = 0 <-> zn lab p' = 0) /\ (zn lab p = zn lab q <-> zn lab p' = zn lab q').
Proof. exact repeat_clusters. Qed.
Print Assumptions C158_clusters_repeat.

(** A row of six pixels of period 3: S2 has its peak at -3, 0 and 3, and the two clusters are exchanged. *)
Example C158_case :
  shapes true [7] [6] /\ good_shape [6] /\ is_image [6] (mkimg [6] [5; 2; 0; 1; 1; 0]) /\
  zero_offset (offset [7] 3) /\ pixel [7] 6 /\ offset [7] 6 = [3] /\ rolls [3] [6] 0 3 /\ rolls [3] [6] 4 1 /\
  clusters true [6] [5; 2; 0; 1; 1; 0] true = Ok [1; 1; 0; 2; 2; 0] /\
  (exists e, fresh true [7] true true (CallS2 (indicator (mkimg [6] [5; 2; 0; 1; 1; 0])) (indicator (mkimg [6] [5; 2; 0; 1; 1; 0])) None) = Ok e /\
     data_first e = map zq [4; 2; 2; 4; 2; 2; 4] /\ result_at e 6 = result_at e 3).
Proof.
  split. { unfold shapes. split; [reflexivity|]. split; [cbn; lia|]. split; [repeat constructor; lia|]. split; [repeat constructor; lia|]. intros _. cbn. lia. }
  split. { split; [discriminate|]. split; [repeat constructor; lia|reflexivity]. }
  split; [split; reflexivity|]. split; [intros t [<-|[]]; reflexivity|]. split; [cbv; split; congruence|]. split; [reflexivity|].
  split. { split; [cbv; split; congruence|]. split; [cbv; split; congruence|]. cbv. auto. }
  split. { split; [cbv; split; congruence|]. split; [cbv; split; congruence|]. cbv. auto. }
  split; [vm_compute; reflexivity|].
  eexists. split; [vm_compute; reflexivity|]. split; vm_compute; reflexivity.
Qed.
