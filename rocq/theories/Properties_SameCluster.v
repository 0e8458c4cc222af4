(** * Properties_SameCluster: C157

    The height of the peaks of C2 in periodic images.  Statements only; [keeps_labels] is defined in
    SpecSameCluster. *)

From Coq Require Import ZArith QArith Qcanon List Bool Lia.
From Verif Require Import Base Ensemble SpecEnsemble SpecSameCluster SameClusterTop SpecCluster.
Import ListNotations.
Open Scope Z_scope.

(** ** C157 C2(f, g) is at most C2(f, f) at zero, and reaches it exactly at the offsets that lead from every
    labelled pixel of f to a pixel of g of the same label *)
Theorem C157_same_cluster : forall asrt var roi shape f g, shapes true roi shape -> is_image shape f -> is_image shape g ->
  exists e ef, fresh asrt roi true var (CallC2 f g None) = Ok e /\ fresh asrt roi true var (CallC2 f f None) = Ok ef /\
    forall r r0, pixel roi r -> pixel roi r0 -> zero_offset (offset roi r0) ->
      exists q qf, result_at e r = Exact q /\ result_at ef r0 = Exact qf /\ (q <= qf)%Qc /\
        (q = qf <-> keeps_labels shape (i_vals f) (i_vals g) (offset roi r)).
Proof. exact C2_same. Qed.
Print Assumptions C157_same_cluster.

(** Two stripes of labels 1 and 2 in a periodic image of 3 x 4 pixels: C2 is at its peak along the
    stripes, and not across them. *)
Example C157_case :
  shapes true [3; 3] [3; 4] /\ is_image [3; 4] (mkimg [3; 4] [1;2;0;0; 1;2;0;0; 1;2;0;0]) /\ zero_offset (offset [3; 3] 4) /\
  pixel [3; 3] 1 /\ offset [3; 3] 1 = [-1; 0] /\ offset [3; 3] 5 = [0; 1] /\
  (exists e, fresh true [3; 3] true true (CallC2 (mkimg [3; 4] [1;2;0;0; 1;2;0;0; 1;2;0;0]) (mkimg [3; 4] [1;2;0;0; 1;2;0;0; 1;2;0;0]) None) = Ok e /\
     data_first e = map zq [0;6;0; 0;6;0; 0;6;0]) /\
  keeps_labels [3; 4] [1;2;0;0; 1;2;0;0; 1;2;0;0] [1;2;0;0; 1;2;0;0; 1;2;0;0] [-1; 0] /\
  ~ keeps_labels [3; 4] [1;2;0;0; 1;2;0;0; 1;2;0;0] [1;2;0;0; 1;2;0;0; 1;2;0;0] [0; 1].
Proof.
  assert (HS : shapes true [3; 3] [3; 4]).
  { unfold shapes. split; [reflexivity|]. split; [cbn; lia|]. split; [repeat constructor; lia|]. split; [repeat constructor; lia|]. intros _. cbn. lia. }
  assert (HI : is_image [3; 4] (mkimg [3; 4] [1;2;0;0; 1;2;0;0; 1;2;0;0])) by (split; reflexivity).
  assert (HZ : zero_offset (offset [3; 3] 4)) by (intros t [<-|[<-|[]]]; reflexivity).
  split; [exact HS|]. split; [exact HI|]. split; [exact HZ|]. split; [cbv; split; congruence|]. split; [reflexivity|]. split; [reflexivity|].
  split. { eexists. split; vm_compute; reflexivity. }
  split; rewrite <- keeps_checked; vm_compute; [reflexivity|discriminate].
Qed.
