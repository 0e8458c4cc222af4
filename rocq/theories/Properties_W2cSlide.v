(** * Properties_W2cSlide: C137

    See properties.jsonl for the English statement; the specification is in SpecEnsemble.v
    ([counted], [value_at]) and SpecW2cSlide.v ([slide]). *)

From Coq Require Import ZArith QArith Qcanon List Bool Lia.
From Verif Require Import Base SpecCluster SpecDilate SpecPath Path Ensemble SpecEnsemble SpecW2cSlide W2cSlide.
Import ListNotations.
Open Scope Z_scope.

(** ** C137 *)

(** The paths depend on the region of interest and the mode only, not on the images. *)
Theorem C137_W2c_slides : forall roi mode, exists paths, forall asrt per var shape, shapes per roi shape -> walkable mode roi ->
  paths_of mode (three roi) paths /\
  forall cl ce f fm, is_image shape cl -> is_image shape ce -> is_image shape f -> is_mask shape fm ->
  let due := counted per roi shape (i_vals cl) (i_vals ce) (i_vals fm) paths in
  let call := fresh asrt roi per var (CallW2c cl ce f (Some fm) mode) in
  ((exists r, pixel roi r /\ due r <> [] /\ ~ pixel roi (r + slide roi)) -> call = UB) /\
  ((forall r, pixel roi r -> due r <> [] -> pixel roi (r + slide roi)) ->
   exists e, call = Ok e /\ roi_shaped roi e /\
   (forall r, pixel roi r -> pixel roi (r + slide roi) ->
      first_at e (r + slide roi) = sum_over (due r) (fun w => value_at per (three shape) (i_vals f) (snd w) (snd (fst w))) /\
      norm_at e (r + slide roi) = zq (lenZ (due r))) /\
   (forall t, pixel roi t -> ~ pixel roi (t - slide roi) -> first_at e t = 0%Qc /\ norm_at e t = 0%Qc) /\
   (forall t, pixel roi t -> result_at e t = Exact (quotient (first_at e t) (norm_at e t)))).
Proof. exact W2c_slides_all. Qed.
Print Assumptions C137_W2c_slides.

(** A region of 1 x 3 x 5: all counts of the middle row are one element too early.  A region of
    3 x 3 x 9: the same images leave the array. *)
Example C137_case :
  slide [1; 3; 5] = -1 /\ slide [3; 3; 9] = -3 /\ slide [3; 9; 3] = 3 /\ slide [3; 5; 5] = 0 /\ slide [9; 5] = 0 /\
  shapes false [1; 3; 5] [1; 1; 5] /\ walkable Bresenham [1; 3; 5] /\ shapes true [3; 3; 9] [1; 1; 5] /\
  (e <- fresh true [1; 3; 5] false true (CallW2c (mkimg [1; 1; 5] [1;1;1;1;1]) (mkimg [1; 1; 5] [0;0;1;0;0]) (mkimg [1; 1; 5] (map zq [1;2;3;4;5])) None Bresenham) ;;
   Ok (map this (norm e))) = Ok (map inject_Z [1;0;1;0;0; 1;12;1;0;0; 1;0;1;0;0]) /\
  fresh true [3; 3; 9] false true (CallW2c (mkimg [1; 1; 5] [1;1;1;1;1]) (mkimg [1; 1; 5] [0;0;1;0;0]) (mkimg [1; 1; 5] (map zq [1;2;3;4;5])) None Bresenham) = UB.
Proof.
  do 5 (split; [reflexivity|]). split. { split; auto. split; [cbn; lia|]. split; [repeat (constructor; [lia|]); constructor|]. split; [repeat (constructor; [lia|]); constructor|discriminate]. }
  split; [repeat (constructor; [lia|]); constructor|].
  split. { split; auto. split; [cbn; lia|]. split; [repeat (constructor; [lia|]); constructor|]. split; [repeat (constructor; [lia|]); constructor|].
    intros _. vm_compute. repeat split; discriminate. }
  split; vm_compute; reflexivity.
Qed.
