(** * Properties_Algebra: C70-C74, C76

    Laws of the two-point statistics.  Statements only; [each], [blend], [indicator],
    [renaming], ... are defined in SpecAlgebra, [same_at] in SpecMoved. *)

From Coq Require Import ZArith QArith Qcanon List Bool Lia.
From Verif Require Import Base SpecCluster SpecDilate Path Ensemble SpecEnsemble SpecMoved SpecAlgebra DerivedAlgebra DerivedRun EnsembleRefute2.
Import ListNotations.
Open Scope Z_scope.

(** ** C70 The height-height correlation depends on height differences only *)
Theorem C70_adding_a_constant :
  forall asrt per var roi shape f m a, shapes per roi shape -> is_image shape f -> mask_of shape m ->
  same_data (fresh asrt roi per var (CallHH f m)) (fresh asrt roi per var (CallHH (each (fun x => x + a)%Qc f) m)).
Proof. exact hh_shift. Qed.
Print Assumptions C70_adding_a_constant.

Theorem C70_scaling :
  forall asrt per var roi shape f m k, shapes per roi shape -> is_image shape f -> mask_of shape m ->
  exists e e', fresh asrt roi per var (CallHH f m) = Ok e /\ fresh asrt roi per var (CallHH (each (fun x => k * x)%Qc f) m) = Ok e' /\
    forall r, pixel roi r ->
      first_at e' r = (k * k * first_at e r)%Qc /\ second_at e' r = (k * k * (k * k) * second_at e r)%Qc /\ norm_at e' r = norm_at e r /\
      exists q, (0 <= q)%Qc /\ result_at e r = Root q /\ result_at e' r = Root (k * k * q)%Qc.
Proof. exact hh_scale. Qed.
Print Assumptions C70_scaling.

(** In a periodic image: H(d)^2 = 2 (S2(0) - S2(d)), with the same normalisation. *)
Theorem C70_from_the_autocorrelation :
  forall asrt var roi shape f, shapes true roi shape -> is_image shape f ->
  exists e e', fresh asrt roi true var (CallHH f None) = Ok e /\ fresh asrt roi true var (CallS2 f f None) = Ok e' /\
    forall r r0, pixel roi r -> pixel roi r0 -> zero_offset (offset roi r0) ->
      first_at e r = (zq 2 * (first_at e' r0 - first_at e' r))%Qc /\ norm_at e r = norm_at e' r.
Proof. exact hh_from_S2. Qed.
Print Assumptions C70_from_the_autocorrelation.

Definition C70_image : img Qc := mkimg [4] (map zq [1; 4; 9; 2]).
Definition C70_mask : img Z := mkimg [4] [0; 0; 1; 0].
Ltac shapes_tac := unfold shapes; split; [reflexivity|]; split; [cbn; lia|]; split; [repeat constructor; lia|]; split; [repeat constructor; lia|];
  intros; vm_compute; intuition discriminate.
Ltac mask_tac := split; [split; reflexivity|cbn; intros; lia].

Example C70_case :
  shapes true [3] [4] /\ is_image [4] C70_image /\ mask_of [4] (Some C70_mask) /\
  (exists e, fresh true [3] true true (CallHH C70_image None) = Ok e /\ data_first e = map zq [84; 0; 84] /\ norm e = map zq [4; 4; 4]) /\
  (exists e, fresh true [3] true true (CallS2 C70_image C70_image None) = Ok e /\ data_first e = map zq [60; 102; 60]) /\
  (exists e, fresh true [3] true true (CallHH C70_image (Some C70_mask)) = Ok e /\ data_first e = map zq [10; 0; 10] /\ norm e = map zq [2; 3; 2]) /\
  zero_offset (offset [3] 1).
Proof.
  split; [shapes_tac|]. split; [split; reflexivity|]. split; [mask_tac|].
  split; [eexists; split; [vm_compute; reflexivity|split; vm_compute; reflexivity]|].
  split; [eexists; split; [vm_compute; reflexivity|vm_compute; reflexivity]|].
  split; [eexists; split; [vm_compute; reflexivity|split; vm_compute; reflexivity]|].
  intros t [<-|[]]. reflexivity.
Qed.

(** ** C71 S2 is bilinear *)
Theorem C71_linear_in_the_first_image :
  forall asrt per var roi shape a b f f' g m, shapes per roi shape ->
  is_image shape f -> is_image shape f' -> is_image shape g -> masks_of shape m ->
  exists e e1 e2, fresh asrt roi per var (CallS2 (blend a b f f') g m) = Ok e /\
    fresh asrt roi per var (CallS2 f g m) = Ok e1 /\ fresh asrt roi per var (CallS2 f' g m) = Ok e2 /\
    forall r, pixel roi r -> norm_at e r = norm_at e1 r /\ norm_at e r = norm_at e2 r /\
      first_at e r = (a * first_at e1 r + b * first_at e2 r)%Qc /\
      exists q1 q2, result_at e1 r = Exact q1 /\ result_at e2 r = Exact q2 /\ result_at e r = Exact (a * q1 + b * q2)%Qc.
Proof. exact S2_linear_first. Qed.
Print Assumptions C71_linear_in_the_first_image.

Theorem C71_linear_in_the_second_image :
  forall asrt per var roi shape a b f g g' m, shapes per roi shape ->
  is_image shape f -> is_image shape g -> is_image shape g' -> masks_of shape m ->
  exists e e1 e2, fresh asrt roi per var (CallS2 f (blend a b g g') m) = Ok e /\
    fresh asrt roi per var (CallS2 f g m) = Ok e1 /\ fresh asrt roi per var (CallS2 f g' m) = Ok e2 /\
    forall r, pixel roi r -> norm_at e r = norm_at e1 r /\ norm_at e r = norm_at e2 r /\
      first_at e r = (a * first_at e1 r + b * first_at e2 r)%Qc /\
      exists q1 q2, result_at e1 r = Exact q1 /\ result_at e2 r = Exact q2 /\ result_at e r = Exact (a * q1 + b * q2)%Qc.
Proof. exact S2_linear_second. Qed.
Print Assumptions C71_linear_in_the_second_image.

Example C71_case :
  shapes false [3] [4] /\ is_image [4] C70_image /\ masks_of [4] (Some (C70_mask, C70_mask)) /\
  i_vals (blend (zq 2) (zq (-1)) C70_image (mkimg [4] (map zq [0; 1; 1; 5]))) = map zq [2; 7; 17; -1] /\
  exists e, fresh true [3] false true (CallS2 (blend (zq 2) (zq (-1)) C70_image (mkimg [4] (map zq [0; 1; 1; 5]))) C70_image
                                              (Some (C70_mask, C70_mask))) = Ok e /\
    data_first e = map zq [7; 28; 8] /\ norm e = map zq [1; 3; 1].
Proof.
  split; [shapes_tac|]. split; [split; reflexivity|]. split; [split; mask_tac|]. split; [vm_compute; reflexivity|].
  eexists. split; [vm_compute; reflexivity|]. split; vm_compute; reflexivity.
Qed.

(** ** C72 Exchanging the two images (and their masks) mirrors the offsets

    Proved without periodicity, and for periodic images without masks. *)
Theorem C72_S2_exchange_partial :
  forall asrt per var roi shape f g m, shapes per roi shape -> is_image shape f -> is_image shape g -> masks_of shape m ->
  (per = false \/ m = None) ->
  exists e e', fresh asrt roi per var (CallS2 f g m) = Ok e /\ fresh asrt roi per var (CallS2 g f (exchanged m)) = Ok e' /\
    forall r r', pixel roi r -> pixel roi r' -> offset roi r' = opposite (offset roi r) -> same_at e r e' r'.
Proof. exact S2_exchange. Qed.
Print Assumptions C72_S2_exchange_partial.

Theorem C72_C2_exchange_partial :
  forall asrt per var roi shape f g m, shapes per roi shape -> is_image shape f -> is_image shape g -> masks_of shape m ->
  (per = false \/ m = None) ->
  exists e e', fresh asrt roi per var (CallC2 f g m) = Ok e /\ fresh asrt roi per var (CallC2 g f (exchanged m)) = Ok e' /\
    forall r r', pixel roi r -> pixel roi r' -> offset roi r' = opposite (offset roi r) -> same_at e r e' r'.
Proof. exact C2_exchange. Qed.
Print Assumptions C72_C2_exchange_partial.

Theorem C72_heightheight_symmetric_partial :
  forall asrt per var roi shape f m, shapes per roi shape -> is_image shape f -> mask_of shape m ->
  (per = false \/ m = None) ->
  exists e, fresh asrt roi per var (CallHH f m) = Ok e /\
    forall r r', pixel roi r -> pixel roi r' -> offset roi r' = opposite (offset roi r) -> same_at e r e r'.
Proof. exact HH_exchange. Qed.
Print Assumptions C72_heightheight_symmetric_partial.

(** With masks on periodic images it is false: a masked pixel that is seen through the boundary
    counts as second pixel, never as first. *)
Theorem C72_exchange_refuted :
  exists roi shape f g m e e' r r',
    shapes true roi shape /\ is_image shape f /\ is_image shape g /\ masks_of shape m /\
    fresh true roi true true (CallS2 f g m) = Ok e /\ fresh true roi true true (CallS2 g f (exchanged m)) = Ok e' /\
    pixel roi r /\ pixel roi r' /\ offset roi r' = opposite (offset roi r) /\
    norm_at e r <> norm_at e' r' /\ result_at e r <> result_at e' r'.
Proof. exact exchange_refuted. Qed.
Print Assumptions C72_exchange_refuted.

Theorem C72_heightheight_refuted :
  exists roi shape f m e r r',
    shapes true roi shape /\ is_image shape f /\ mask_of shape m /\
    fresh true roi true true (CallHH f m) = Ok e /\
    pixel roi r /\ pixel roi r' /\ offset roi r' = opposite (offset roi r) /\
    norm_at e r <> norm_at e r' /\ result_at e r <> result_at e r'.
Proof. exact hh_exchange_refuted. Qed.
Print Assumptions C72_heightheight_refuted.

Definition C72_labels : img Z := mkimg [4] [1; 2; 2; 1].
Definition C72_other : img Z := mkimg [4] [0; 1; 1; 2].
Example C72_case :
  shapes false [3] [4] /\ masks_of [4] (Some (C70_mask, mkimg [4] [1; 0; 0; 0])) /\
  offset [3] 2 = opposite (offset [3] 0) /\
  (exists e, fresh true [3] false true (CallS2 C70_image (each zq C72_other) (Some (C70_mask, mkimg [4] [1; 0; 0; 0]))) = Ok e /\
     data_first e = map zq [2; 8; 5] /\ norm e = map zq [1; 2; 2]) /\
  (exists e, fresh true [3] false true (CallS2 (each zq C72_other) C70_image (exchanged (Some (C70_mask, mkimg [4] [1; 0; 0; 0])))) = Ok e /\
     data_first e = map zq [5; 8; 2] /\ norm e = map zq [2; 2; 1]) /\
  (exists e, fresh true [3] true true (CallC2 C72_labels C72_other None) = Ok e /\ data_first e = map zq [1; 0; 2]).
Proof.
  split; [shapes_tac|]. split; [split; mask_tac|]. split; [reflexivity|].
  split; [eexists; split; [vm_compute; reflexivity|split; vm_compute; reflexivity]|].
  split; [eexists; split; [vm_compute; reflexivity|split; vm_compute; reflexivity]|].
  eexists; split; vm_compute; reflexivity.
Qed.

(** ** C73 W2 is a weighted average *)
Theorem C73_constant_image :
  forall asrt per var roi shape w f m c, shapes per roi shape -> is_image shape w -> is_image shape f -> mask_of shape m ->
  (forall x, In x (i_vals f) -> x = c) ->
  exists e, fresh asrt roi per var (CallW2 w f m) = Ok e /\
    forall r, pixel roi r -> (0 < norm_at e r)%Qc -> result_at e r = Exact c.
Proof. exact W2_constant. Qed.
Print Assumptions C73_constant_image.

Theorem C73_scaling_the_weights :
  forall asrt per var roi shape w f m k, shapes per roi shape -> is_image shape w -> is_image shape f -> mask_of shape m ->
  nonnegative w -> (0 < k)%Qc ->
  exists e e', fresh asrt roi per var (CallW2 w f m) = Ok e /\ fresh asrt roi per var (CallW2 (each (fun x => k * x)%Qc w) f m) = Ok e' /\
    result e' = result e /\ forall r, pixel roi r -> norm_at e' r = (k * norm_at e r)%Qc.
Proof. exact W2_scale_weights. Qed.
Print Assumptions C73_scaling_the_weights.

Theorem C73_unit_weights :
  forall asrt per var roi shape w f, shapes per roi shape -> is_image shape w -> is_image shape f ->
  (forall x, In x (i_vals w) -> x = 1%Qc) ->
  forall m, mask_of shape m ->
  same_data (fresh asrt roi per var (CallW2 w f m)) (fresh asrt roi per var (CallS2 w f (Some (zeros shape, mask1 w m)))).
Proof. exact W2_unit_weights. Qed.
Print Assumptions C73_unit_weights.

Theorem C73_linear_in_the_image :
  forall asrt per var roi shape a b w f f' m, shapes per roi shape ->
  is_image shape w -> is_image shape f -> is_image shape f' -> mask_of shape m ->
  exists e e1 e2, fresh asrt roi per var (CallW2 w (blend a b f f') m) = Ok e /\
    fresh asrt roi per var (CallW2 w f m) = Ok e1 /\ fresh asrt roi per var (CallW2 w f' m) = Ok e2 /\
    forall r, pixel roi r -> norm_at e r = norm_at e1 r /\ norm_at e r = norm_at e2 r /\
      first_at e r = (a * first_at e1 r + b * first_at e2 r)%Qc /\
      exists q1 q2, result_at e1 r = Exact q1 /\ result_at e2 r = Exact q2 /\ result_at e r = Exact (a * q1 + b * q2)%Qc.
Proof. exact W2_linear. Qed.
Print Assumptions C73_linear_in_the_image.

Definition C73_weights : img Qc := mkimg [4] (map zq [1; 0; 3; 2]).
Example C73_case :
  shapes false [3] [4] /\ is_image [4] C73_weights /\ nonnegative C73_weights /\ mask_of [4] (Some C70_mask) /\ (0 < zq 5)%Qc /\
  (exists e, fresh true [3] false true (CallW2 C73_weights C70_image (Some C70_mask)) = Ok e /\
     data_first e = map zq [12; 5; 10] /\ norm e = map zq [3; 3; 4] /\ (0 < norm_at e 0)%Qc).
Proof.
  split; [shapes_tac|]. split; [split; reflexivity|].
  split. { intros x Hx. cbn in Hx. decompose [or] Hx; subst; try contradiction; vm_compute; discriminate. }
  split; [mask_tac|]. split; [vm_compute; reflexivity|].
  eexists; split; [vm_compute; reflexivity|]. split; [vm_compute; reflexivity|]. split; vm_compute; reflexivity.
Qed.

(** ** C74 C2 depends on the partition by labels only, and is bounded by S2 *)
Theorem C74_renaming_labels :
  forall asrt per var roi shape f g m F, shapes per roi shape -> is_image shape f -> is_image shape g -> masks_of shape m ->
  renaming F ->
  same_data (fresh asrt roi per var (CallC2 f g m)) (fresh asrt roi per var (CallC2 (each F f) (each F g) m)).
Proof. exact C2_renamed. Qed.
Print Assumptions C74_renaming_labels.

Theorem C74_bounded_by_S2 :
  forall asrt per var roi shape f g m, shapes per roi shape -> is_image shape f -> is_image shape g -> masks_of shape m ->
  exists e e', fresh asrt roi per var (CallC2 f g m) = Ok e /\ fresh asrt roi per var (CallS2 (indicator f) (indicator g) m) = Ok e' /\
    (forall r, pixel roi r -> norm_at e r = norm_at e' r /\ (0 <= first_at e r)%Qc /\ (first_at e r <= first_at e' r)%Qc /\ (first_at e' r <= norm_at e' r)%Qc) /\
    ((forall x, In x (i_vals f) -> x = 0 \/ x = 1) -> (forall x, In x (i_vals g) -> x = 0 \/ x = 1) ->
     data_first e = data_first e' /\ norm e = norm e' /\ result e = result e').
Proof. exact C2_below_S2. Qed.
Print Assumptions C74_bounded_by_S2.

Definition C74_clusters : img Z := mkimg [5] [1; 1; 0; 2; 2].
Example C74_case :
  shapes true [3] [5] /\ is_image [5] C74_clusters /\ renaming (fun x => - 3 * x) /\
  (exists e, fresh true [3] true true (CallC2 C74_clusters C74_clusters None) = Ok e /\ data_first e = map zq [2; 4; 2]) /\
  (exists e, fresh true [3] true true (CallC2 (each (fun x => - 3 * x) C74_clusters) (each (fun x => - 3 * x) C74_clusters) None) = Ok e /\
     data_first e = map zq [2; 4; 2]) /\
  (exists e, fresh true [3] true true (CallS2 (indicator C74_clusters) (indicator C74_clusters) None) = Ok e /\ data_first e = map zq [3; 4; 3]).
Proof.
  split; [shapes_tac|]. split; [split; reflexivity|]. split; [split; intros; lia|].
  repeat split; eexists; (split; [vm_compute; reflexivity|vm_compute; reflexivity]).
Qed.

(** ** C76 The flag [variance] never changes an average; the functions for one image

    Any sequence of any calls, valid or not: also whether and how it fails is the same. *)
Theorem C76_flag_irrelevant_to_averages :
  forall asrt roi per var var' cs,
  same_outcome same_average
    (e0 <- ensemble asrt roi per var ;; run asrt cs e0) (e0 <- ensemble asrt roi per var' ;; run asrt cs e0).
Proof. exact flag_irrelevant. Qed.
Print Assumptions C76_flag_irrelevant_to_averages.

Theorem C76_functions_for_one_image :
  forall asrt roi per var c, single asrt roi per c = (e <- fresh asrt roi per var c ;; Ok (result e)).
Proof. exact single_is_fresh. Qed.
Print Assumptions C76_functions_for_one_image.

(** A history in which the flag does change what is stored, and one that fails. *)
Example C76_case :
  (exists e e', (e0 <- ensemble true [3] true true ;; run true [CallHH C70_image None; CallHH C73_weights (Some C70_mask)] e0) = Ok e /\
    (e0 <- ensemble true [3] true false ;; run true [CallHH C70_image None; CallHH C73_weights (Some C70_mask)] e0) = Ok e' /\
    data_second e <> data_second e' /\ data_first e = map zq [86; 0; 86]) /\
  (e0 <- ensemble true [3] true false ;; run true [CallHH C70_image None; CallS2 C70_image C70_image None] e0) = Throw.
Proof.
  split; [|vm_compute; reflexivity].
  eexists; eexists. split; [vm_compute; reflexivity|]. split; [vm_compute; reflexivity|]. split; [vm_compute; discriminate|vm_compute; reflexivity].
Qed.
