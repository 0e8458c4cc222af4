(** * Properties_W2cLaws: C114

    Each theorem is closed by [exact] of a lemma; definitions used in the statements:
    [SpecEnsemble.v], [SpecAlgebra.v], and the model [Ensemble.v]. *)

From Coq Require Import ZArith QArith Qcanon List Bool Lia.
From Verif Require Import Base SpecCluster SpecDilate SpecPath Path Ensemble SpecEnsemble SpecAlgebra W2cLaws W2cLawsCase W2cLawsAny.
Import ListNotations.
Open Scope Z_scope.

(** ** C114 W2c is an average over pixels of the image *)

(** Of a periodic image the result lies between the extremes of the pixels that are not masked. *)
Theorem C114_between_partial : forall asrt var roi shape cl ce f m mode lo hi, shapes true roi shape -> walkable mode roi -> even_sided roi ->
  is_image shape cl -> is_image shape ce -> is_image shape f -> mask_of shape m ->
  (forall p, pixel shape p -> zn (i_vals (mask1 f m)) p = 0 -> (lo <= qn (i_vals f) p)%Qc /\ (qn (i_vals f) p <= hi)%Qc) ->
  exists e, fresh asrt roi true var (CallW2c cl ce f m mode) = Ok e /\
    forall r, pixel roi r -> norm_at e r <> 0%Qc -> exists q, result_at e r = Exact q /\ (lo <= q)%Qc /\ (q <= hi)%Qc.
Proof. exact W2c_between. Qed.
Print Assumptions C114_between_partial.

Theorem C114_constant_partial : forall asrt var roi shape cl ce f m mode c, shapes true roi shape -> walkable mode roi -> even_sided roi ->
  is_image shape cl -> is_image shape ce -> is_image shape f -> mask_of shape m -> (forall x, In x (i_vals f) -> x = c) ->
  exists e, fresh asrt roi true var (CallW2c cl ce f m mode) = Ok e /\
    forall r, pixel roi r -> norm_at e r <> 0%Qc -> result_at e r = Exact c.
Proof. exact W2c_constant. Qed.
Print Assumptions C114_constant_partial.

(** Of any other image the surroundings count as zeros that are not masked, so that the average
    of ones is not one. *)
Theorem C114_constant_refuted : exists roi shape cl ce f e r, shapes false roi shape /\ walkable Bresenham roi /\ even_sided roi /\
  is_image shape cl /\ is_image shape ce /\ is_image shape f /\ (forall x, In x (i_vals f) -> x = 1%Qc) /\
  fresh true roi false true (CallW2c cl ce f None Bresenham) = Ok e /\ pixel roi r /\ norm_at e r <> 0%Qc /\
  result_at e r = Exact (1 / zq 2)%Qc.
Proof. exact W2c_surroundings. Qed.
Print Assumptions C114_constant_refuted.

(** It is linear in the image, ... *)
Theorem C114_linear : forall asrt per var roi shape a b cl ce f f' m mode, shapes per roi shape -> walkable mode roi -> even_sided roi ->
  is_image shape cl -> is_image shape ce -> is_image shape f -> is_image shape f' -> mask_of shape m ->
  exists e e1 e2, fresh asrt roi per var (CallW2c cl ce (blend a b f f') m mode) = Ok e /\
    fresh asrt roi per var (CallW2c cl ce f m mode) = Ok e1 /\ fresh asrt roi per var (CallW2c cl ce f' m mode) = Ok e2 /\
    forall r, pixel roi r -> norm_at e r = norm_at e1 r /\ norm_at e r = norm_at e2 r /\
      first_at e r = (a * first_at e1 r + b * first_at e2 r)%Qc /\
      exists q1 q2, result_at e1 r = Exact q1 /\ result_at e2 r = Exact q2 /\ result_at e r = Exact (a * q1 + b * q2)%Qc.
Proof. exact W2c_linear. Qed.
Print Assumptions C114_linear.

(** ... and what masked pixels hold has no influence, periodic or not. *)
Theorem C114_masked_pixels : forall asrt per var roi shape cl ce f f' fm mode, shapes per roi shape -> walkable mode roi -> even_sided roi ->
  is_image shape cl -> is_image shape ce -> same_unmasked shape fm f f' ->
  exists e e', fresh asrt roi per var (CallW2c cl ce f (Some fm) mode) = Ok e /\ fresh asrt roi per var (CallW2c cl ce f' (Some fm) mode) = Ok e' /\
    forall r, pixel roi r -> first_at e r = first_at e' r /\ norm_at e r = norm_at e' r /\ result_at e r = result_at e' r.
Proof. exact W2c_ignores. Qed.
Print Assumptions C114_masked_pixels.

(** The same for every region of interest for which the call returns (C137: regions of unequal
    padding have their counts elsewhere, and may leave the array). *)
Theorem C114_between_every_region : forall asrt var roi shape cl ce f m mode lo hi e, shapes true roi shape -> walkable mode roi ->
  is_image shape cl -> is_image shape ce -> is_image shape f -> mask_of shape m ->
  (forall p, pixel shape p -> zn (i_vals (mask1 f m)) p = 0 -> (lo <= qn (i_vals f) p)%Qc /\ (qn (i_vals f) p <= hi)%Qc) ->
  fresh asrt roi true var (CallW2c cl ce f m mode) = Ok e ->
  forall t, pixel roi t -> norm_at e t <> 0%Qc -> exists q, result_at e t = Exact q /\ (lo <= q)%Qc /\ (q <= hi)%Qc.
Proof. exact between_anywhere. Qed.
Print Assumptions C114_between_every_region.

Theorem C114_linear_every_region : forall asrt per var roi shape a b cl ce f f' m mode e1, shapes per roi shape -> walkable mode roi ->
  is_image shape cl -> is_image shape ce -> is_image shape f -> is_image shape f' -> mask_of shape m ->
  fresh asrt roi per var (CallW2c cl ce f m mode) = Ok e1 ->
  exists e e2, fresh asrt roi per var (CallW2c cl ce (blend a b f f') m mode) = Ok e /\ fresh asrt roi per var (CallW2c cl ce f' m mode) = Ok e2 /\
    forall t, pixel roi t -> norm_at e t = norm_at e1 t /\ norm_at e t = norm_at e2 t /\
      first_at e t = (a * first_at e1 t + b * first_at e2 t)%Qc /\
      exists q1 q2, result_at e1 t = Exact q1 /\ result_at e2 t = Exact q2 /\ result_at e t = Exact (a * q1 + b * q2)%Qc.
Proof. exact linear_anywhere. Qed.
Print Assumptions C114_linear_every_region.

Theorem C114_masked_pixels_every_region : forall asrt per var roi shape cl ce f f' fm mode e, shapes per roi shape -> walkable mode roi ->
  is_image shape cl -> is_image shape ce -> same_unmasked shape fm f f' ->
  fresh asrt roi per var (CallW2c cl ce f (Some fm) mode) = Ok e ->
  exists e', fresh asrt roi per var (CallW2c cl ce f' (Some fm) mode) = Ok e' /\
    forall t, pixel roi t -> first_at e t = first_at e' t /\ norm_at e t = norm_at e' t /\ result_at e t = result_at e' t.
Proof. exact ignores_anywhere. Qed.
Print Assumptions C114_masked_pixels_every_region.

Example C114_every_region_case : ~ even_sided [1; 3; 5] /\ shapes true [1; 3; 5] [1; 1; 5] /\ walkable Bresenham [1; 3; 5] /\
  exists e, fresh true [1; 3; 5] true true (CallW2c (mkimg [1; 1; 5] [1;1;1;1;1]) (mkimg [1; 1; 5] [0;0;1;0;0]) (mkimg [1; 1; 5] (map zq [1;2;3;4;5])) None Bresenham) = Ok e /\
    map this (norm e) = map inject_Z [1;0;1;0;0; 1;12;1;0;0; 1;0;1;0;0].
Proof.
  split; [intros H; vm_compute in H; intuition discriminate|].
  split. { split; auto. split; [cbn; lia|]. split; [repeat (constructor; [lia|]); constructor|]. split; [repeat (constructor; [lia|]); constructor|].
    intros _. vm_compute. repeat split; discriminate. }
  split; [repeat (constructor; [lia|]); constructor|]. eexists. split; vm_compute; reflexivity.
Qed.

(** Five pixels, one cluster, one masked pixel next to its centre. *)
Example C114_case : shapes true [5] [5] /\ walkable Bresenham [5] /\ even_sided [5] /\
  is_image [5] (mkimg [5] (map zq [2; 3; 5; 7; 9])) /\ mask_of [5] (Some (mkimg [5] [0; 0; 0; 1; 0])) /\
  exists e, fresh true [5] true true (CallW2c (mkimg [5] [1; 0; 0; 0; 1]) (mkimg [5] [0; 0; 0; 0; 1]) (mkimg [5] (map zq [2; 3; 5; 7; 9])) (Some (mkimg [5] [0; 0; 0; 1; 0])) Bresenham) = Ok e /\
    data_first e = map zq [0; 5; 2; 3; 0] /\ norm e = map zq [0; 1; 1; 1; 0] /\ norm_at e 2 <> 0%Qc.
Proof. exact W2c_laws_case. Qed.
