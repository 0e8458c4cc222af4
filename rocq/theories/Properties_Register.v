(** * Properties_Register: C156

    S2 of two periodic images shows by how much one is displaced with respect to the other.  Statements
    only; [carried_to] is defined in SpecRegister. *)

From Coq Require Import ZArith QArith Qcanon List Bool Lia.
From Verif Require Import Base Ensemble SpecEnsemble SpecAlgebra SpecRegister RegisterTop SpecCluster.
Import ListNotations.
Open Scope Z_scope.

(** ** C156 S2(f, g) is at most the mean of S2(f, f) and S2(g, g) at zero, and reaches it exactly at the
    offsets by which g is f displaced *)
Theorem C156_register : forall asrt var roi shape f g, shapes true roi shape -> is_image shape f -> is_image shape g ->
  exists e ef eg, fresh asrt roi true var (CallS2 f g None) = Ok e /\
    fresh asrt roi true var (CallS2 f f None) = Ok ef /\ fresh asrt roi true var (CallS2 g g None) = Ok eg /\
    forall r r0, pixel roi r -> pixel roi r0 -> zero_offset (offset roi r0) ->
      exists q qf qg, result_at e r = Exact q /\ result_at ef r0 = Exact qf /\ result_at eg r0 = Exact qg /\
        (q + q <= qf + qg)%Qc /\ ((q + q = qf + qg)%Qc <-> carried_to shape (i_vals f) (i_vals g) (offset roi r)).
Proof. exact S2_register. Qed.
Print Assumptions C156_register.

(** An image of five pixels, and the same displaced by one: the peak is at offset one. *)
Example C156_case :
  shapes true [3] [5] /\ is_image [5] (mkimg [5] (map zq [1; 2; 3; 0; 0])) /\ is_image [5] (mkimg [5] (map zq [0; 1; 2; 3; 0])) /\
  zero_offset (offset [3] 1) /\ pixel [3] 2 /\ offset [3] 2 = [1] /\
  carried_to [5] (map zq [1; 2; 3; 0; 0]) (map zq [0; 1; 2; 3; 0]) [1] /\ ~ carried_to [5] (map zq [1; 2; 3; 0; 0]) (map zq [0; 1; 2; 3; 0]) [-1] /\
  (exists e, fresh true [3] true true (CallS2 (mkimg [5] (map zq [1; 2; 3; 0; 0])) (mkimg [5] (map zq [0; 1; 2; 3; 0])) None) = Ok e /\ data_first e = map zq [3; 8; 14]) /\
  (exists e, fresh true [3] true true (CallS2 (mkimg [5] (map zq [1; 2; 3; 0; 0])) (mkimg [5] (map zq [1; 2; 3; 0; 0])) None) = Ok e /\ data_first e = map zq [8; 14; 8]).
Proof.
  split. { unfold shapes. split; [reflexivity|]. split; [cbn; lia|]. split; [repeat constructor; lia|]. split; [repeat constructor; lia|]. intros _. cbn. lia. }
  split; [split; reflexivity|]. split; [split; reflexivity|]. split; [intros t [<-|[]]; reflexivity|]. split; [cbv; split; congruence|]. split; [reflexivity|].
  split. { apply gaps_carried. vm_compute. reflexivity. } split. { rewrite <- gaps_carried. vm_compute. discriminate. }
  split; (eexists; split; [vm_compute; reflexivity|vm_compute; reflexivity]).
Qed.
