(** * W2cLawsCase: witnesses for W2cLaws (proofs only) *)

From Coq Require Import ZArith QArith Qcanon List Bool Lia.
From Verif Require Import Base SpecCluster SpecDilate SpecPath Path Ensemble SpecEnsemble SpecAlgebra.
Import ListNotations.
Open Scope Z_scope.

(** The cluster is at the end of the image: one of its two neighbours does not exist. *)
Lemma W2c_surroundings : exists roi shape cl ce f e r, shapes false roi shape /\ walkable Bresenham roi /\ even_sided roi /\
  is_image shape cl /\ is_image shape ce /\ is_image shape f /\ (forall x, In x (i_vals f) -> x = 1%Qc) /\
  fresh true roi false true (CallW2c cl ce f None Bresenham) = Ok e /\ pixel roi r /\ norm_at e r <> 0%Qc /\
  result_at e r = Exact (1 / zq 2)%Qc.
Proof.
  exists [5], [3], (mkimg [3] [0; 0; 1]), (mkimg [3] [0; 0; 1]), (mkimg [3] [1; 1; 1]%Qc). eexists. exists 2.
  split. { split; [reflexivity|]. split; [cbn; lia|]. split; [repeat constructor; lia|]. split; [repeat constructor; lia|discriminate]. }
  split; [repeat constructor; lia|]. split; [exact I|]. split; [split; reflexivity|]. split; [split; reflexivity|]. split; [split; reflexivity|].
  split. { intros x IN. cbn in IN. intuition auto. }
  split; [vm_compute; reflexivity|]. split; [unfold pixel; cbn; lia|]. split; [vm_compute; discriminate|]. vm_compute. f_equal.
Qed.

Lemma W2c_laws_case : shapes true [5] [5] /\ walkable Bresenham [5] /\ even_sided [5] /\
  is_image [5] (mkimg [5] (map zq [2; 3; 5; 7; 9])) /\ mask_of [5] (Some (mkimg [5] [0; 0; 0; 1; 0])) /\
  exists e, fresh true [5] true true (CallW2c (mkimg [5] [1; 0; 0; 0; 1]) (mkimg [5] [0; 0; 0; 0; 1]) (mkimg [5] (map zq [2; 3; 5; 7; 9])) (Some (mkimg [5] [0; 0; 0; 1; 0])) Bresenham) = Ok e /\
    data_first e = map zq [0; 5; 2; 3; 0] /\ norm e = map zq [0; 1; 1; 1; 0] /\ norm_at e 2 <> 0%Qc.
Proof.
  split. { split; [reflexivity|]. split; [cbn; lia|]. split; [repeat constructor; lia|]. split; [repeat constructor; lia|]. intros _. vm_compute. intuition discriminate. }
  split; [repeat constructor; lia|]. split; [exact I|]. split; [split; reflexivity|].
  split. { split; [split; reflexivity|]. intros x IN. cbn in IN. intuition auto. }
  eexists. split; [vm_compute; reflexivity|]. split; [vm_compute; reflexivity|]. split; [vm_compute; reflexivity|]. vm_compute. discriminate.
Qed.
