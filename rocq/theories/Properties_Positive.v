(** * Properties_Positive: C148

    Quadratic forms of the statistics of periodic images without masks, and the triangle
    inequality of the height differences.  Statements only; [leads], [form], [total] are defined
    in SpecPositive, [plus_offset] in SpecRelations, [real] in SpecEnsemble. *)

From Coq Require Import ZArith QArith Qcanon Qreals Reals List Bool Lia.
From Verif Require Import Base SpecCluster SpecDilate Path Ensemble SpecEnsemble SpecRelations SpecPositive PositiveDefinite.
Import ListNotations.
Open Scope Z_scope.

(** ** C148 Autocorrelations are positive definite, height differences are a distance *)

(** For an ensemble of any images: the sum of [c d S2(y - x)] over all pairs of any places x, y
    with any coefficients c, d is not negative. *)
Theorem C148_S2 :
  forall asrt var roi e0 fs, ensemble asrt roi true var = Ok e0 -> images roi fs ->
  exists e s, run asrt (autocorrelations fs) e0 = Ok e /\ (forall r, pixel roi r -> result_at e r = Exact (s r)) /\
    forall l el, leads roi l el -> (0 <= form l el s)%Qc.
Proof. exact S2_definite. Qed.
Print Assumptions C148_S2.

(** So is that of C2 of images of labels with themselves. *)
Theorem C148_C2 :
  forall asrt var roi e0 fs, ensemble asrt roi true var = Ok e0 -> images roi fs ->
  exists e s, run asrt (cluster_correlations fs) e0 = Ok e /\ (forall r, pixel roi r -> result_at e r = Exact (s r)) /\
    forall l el, leads roi l el -> (0 <= form l el s)%Qc.
Proof. exact C2_definite. Qed.
Print Assumptions C148_C2.

(** That of the square of heightheight is not positive if the coefficients sum to zero. *)
Theorem C148_heightheight :
  forall asrt var roi e0 fs, ensemble asrt roi true var = Ok e0 -> images roi fs ->
  exists e s, run asrt (height_calls fs) e0 = Ok e /\ (forall r, pixel roi r -> result_at e r = Root (s r)) /\
    forall l el, leads roi l el -> total l = 0%Qc -> (form l el s <= 0)%Qc.
Proof. exact hh_definite. Qed.
Print Assumptions C148_heightheight.

(** The result at the sum of two offsets is at most the sum of the results. *)
Theorem C148_triangle :
  forall asrt var roi e0 fs, ensemble asrt roi true var = Ok e0 -> images roi fs ->
  exists e, run asrt (height_calls fs) e0 = Ok e /\
    forall r1 r2 r3, pixel roi r1 -> pixel roi r2 -> pixel roi r3 ->
      offset roi r3 = plus_offset (offset roi r1) (offset roi r2) ->
      (real (result_at e r3) <= real (result_at e r1) + real (result_at e r2))%R.
Proof. exact hh_triangle. Qed.
Print Assumptions C148_triangle.

Definition C148_images : list (img Qc) := [mkimg [7] (map zq [1; 3; 0; -2; 5; 4; 1]); mkimg [4] (map zq [2; 0; 1; 0])].
Definition C148_labels : list (img Z) := [mkimg [7] [1; 1; 0; 2; 2; 1; 0]; mkimg [4] [3; 0; 3; 3]].
Definition C148_places : weighted := [(zq 1, [0]); (zq (-2), [1]); (zq 1, [2])].
Definition C148_el (x y : list Z) : Z := hd 0 y - hd 0 x + 2.
Definition C148_value (cs : list call) : res Q :=
  e0 <- ensemble true [5] true true ;; e <- run true cs e0 ;;
  Ok (this (form C148_places C148_el (fun r => number (result_at e r)))).

(** The second difference of the correlation. *)
Example C148_case :
  images [5] C148_images /\ images [5] C148_labels /\ leads [5] C148_places C148_el /\ total C148_places = 0%Qc /\
  C148_value (autocorrelations C148_images) = Ok (226 # 11)%Q /\
  C148_value (cluster_correlations C148_labels) = Ok (2 # 1)%Q /\
  C148_value (height_calls C148_images) = Ok (-452 # 11)%Q /\
  (e0 <- ensemble true [5] true true ;; e <- run true (height_calls C148_images) e0 ;; Ok (map (fun r => this (number (result_at e r))) [3; 4]))
    = Ok [(86 # 11)%Q; (118 # 11)%Q] /\
  pixel [5] 3 /\ pixel [5] 4 /\ offset [5] 4 = plus_offset (offset [5] 3) (offset [5] 3).
Proof.
  assert (S1 : forall n, n = 7 \/ n = 4 -> shapes true [5] [n]).
  { intros n [->| ->]; (unfold shapes; split; [reflexivity|]; split; [cbn; lia|]; split; [repeat constructor; lia|]; split; [repeat constructor; lia|]; intros; vm_compute; intuition discriminate). }
  split. { split; [discriminate|]. intros f [<-|[<-|[]]]; (split; [apply S1; auto|split; reflexivity]). }
  split. { split; [discriminate|]. intros f [<-|[<-|[]]]; (split; [apply S1; auto|split; reflexivity]). }
  split. { split.
    - intros cx [<-|[<-|[<-|[]]]]; reflexivity.
    - intros cx dy [<-|[<-|[<-|[]]]] [<-|[<-|[<-|[]]]]; (split; [unfold pixel; vm_compute; intuition discriminate|reflexivity]). }
  split; [apply Qc_is_canon; reflexivity|].
  split; [vm_compute; reflexivity|]. split; [vm_compute; reflexivity|]. split; [vm_compute; reflexivity|]. split; [vm_compute; reflexivity|].
  split; [unfold pixel; vm_compute; intuition discriminate|]. split; [unfold pixel; vm_compute; intuition discriminate|reflexivity].
Qed.
