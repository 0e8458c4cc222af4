(** * Properties_Repeat: C155

    heightheight and S2 find the offsets under which an image repeats itself.  Statements only;
    [repeats] is defined in SpecRepeat. *)

From Coq Require Import ZArith QArith Qcanon List Bool Lia.
From Verif Require Import Base Ensemble SpecEnsemble SpecAlgebra SpecRepeat RepeatTop SpecCluster.
Import ListNotations.
Open Scope Z_scope.

(** ** C155 heightheight is zero at an offset exactly if the image repeats itself there *)
Theorem C155_heightheight : forall asrt per var roi shape f, shapes per roi shape -> is_image shape f ->
  exists e, fresh asrt roi per var (CallHH f None) = Ok e /\
    forall r, pixel roi r -> (result_at e r = Root 0%Qc <-> repeats per shape (i_vals f) (offset roi r)).
Proof. exact HH_repeats. Qed.
Print Assumptions C155_heightheight.

(** ** C155 With a mask, exactly if it does where nothing is masked *)
Theorem C155_masked : forall asrt var roi shape f m, shapes false roi shape -> is_image shape f -> is_mask shape m ->
  exists e, fresh asrt roi false var (CallHH f (Some m)) = Ok e /\
    forall r, pixel roi r -> (result_at e r = Root 0%Qc <-> repeats_unmasked shape (i_vals f) (i_vals m) (offset roi r)).
Proof. exact HH_repeats_unmasked. Qed.
Print Assumptions C155_masked.

(** ** C155 S2 of a periodic image with itself has the value of its centre exactly at those offsets *)
Theorem C155_S2 : forall asrt var roi shape f, shapes true roi shape -> is_image shape f ->
  exists e, fresh asrt roi true var (CallS2 f f None) = Ok e /\
    forall r r0, pixel roi r -> pixel roi r0 -> zero_offset (offset roi r0) ->
      (result_at e r = result_at e r0 <-> repeats true shape (i_vals f) (offset roi r)).
Proof. exact S2_repeats. Qed.
Print Assumptions C155_S2.

(** A periodic image of period 2 along a row of four pixels: it repeats at -2, 0 and 2.  In one that is
    not periodic heightheight is also zero at an offset at which there is no pair. *)
Example C155_case :
  shapes true [5] [5] /\ shapes true [3] [4] /\ shapes false [5] [4] /\ shapes false [5] [2] /\ is_image [4] (mkimg [4] (map zq [1; 3; 1; 3])) /\
  zero_offset (offset [5] 2) /\ pixel [5] 4 /\ offset [5] 4 = [2] /\
  repeats false [4] (map zq [1; 3; 1; 3]) [2] /\ repeats true [4] (map zq [1; 3; 1; 3]) [2] /\ ~ repeats true [4] (map zq [1; 3; 1; 3]) [1] /\
  (exists e, fresh true [5] false true (CallHH (mkimg [4] (map zq [1; 3; 1; 3])) None) = Ok e /\ data_first e = map zq [0; 12; 0; 12; 0]) /\
  (exists e, fresh true [5] false true (CallHH (mkimg [2] (map zq [1; 3])) None) = Ok e /\ data_first e = map zq [0; 4; 0; 4; 0]) /\
  (exists e, fresh true [3] true true (CallS2 (mkimg [4] (map zq [1; 3; 1; 3])) (mkimg [4] (map zq [1; 3; 1; 3])) None) = Ok e /\ data_first e = map zq [12; 20; 12]).
Proof.
  split. { unfold shapes. split; [reflexivity|]. split; [cbn; lia|]. split; [repeat constructor; lia|]. split; [repeat constructor; lia|]. intros _. cbn. lia. }
  split. { unfold shapes. split; [reflexivity|]. split; [cbn; lia|]. split; [repeat constructor; lia|]. split; [repeat constructor; lia|]. intros _. cbn. lia. }
  split. { unfold shapes. split; [reflexivity|]. split; [cbn; lia|]. split; [repeat constructor; lia|]. split; [repeat constructor; lia|]. discriminate. }
  split. { unfold shapes. split; [reflexivity|]. split; [cbn; lia|]. split; [repeat constructor; lia|]. split; [repeat constructor; lia|]. discriminate. }
  split; [split; reflexivity|]. split; [intros t [<-|[]]; reflexivity|]. split; [cbv; split; congruence|]. split; [reflexivity|].
  assert (R : forall per, repeats per [4] (map zq [1; 3; 1; 3]) [2]).
  { intros per. apply sums_repeat. destruct per; vm_compute; reflexivity. }
  split; [apply R|]. split; [apply R|]. split. { rewrite <- sums_repeat. vm_compute. discriminate. }
  repeat split; (eexists; split; [vm_compute; reflexivity|vm_compute; reflexivity]).
Qed.

(** The third pixel of four breaks the pattern; if it is masked the image repeats at 2. *)
Example C155_masked_case :
  is_mask [4] (mkimg [4] [0; 0; 1; 0]) /\ shapes false [5] [4] /\
  repeats_unmasked [4] (map zq [1; 3; 7; 3]) [0; 0; 1; 0] [2] /\ ~ repeats false [4] (map zq [1; 3; 7; 3]) [2] /\
  (exists e, fresh true [5] false true (CallHH (mkimg [4] (map zq [1; 3; 7; 3])) (Some (mkimg [4] [0; 0; 1; 0]))) = Ok e /\ data_first e = map zq [0; 4; 0; 4; 0]) /\
  (exists e, fresh true [5] false true (CallHH (mkimg [4] (map zq [1; 3; 7; 3])) None) = Ok e /\ data_first e = map zq [36; 36; 0; 36; 36]).
Proof.
  split. { split; [split; reflexivity|]. cbn [i_vals In]. intros x H. lia. }
  split. { unfold shapes. split; [reflexivity|]. split; [cbn; lia|]. split; [repeat constructor; lia|]. split; [repeat constructor; lia|]. discriminate. }
  split. { apply sums_unmasked. vm_compute. reflexivity. } split. { rewrite <- sums_repeat. vm_compute. discriminate. }
  split; (eexists; split; [vm_compute; reflexivity|vm_compute; reflexivity]).
Qed.
