(** * Properties_Thin: C119

    See properties.jsonl for the English statement; the specification is in SpecEnsemble.v,
    SpecLinealMoved.v, SpecRoi.v and SpecThin.v. *)

From Coq Require Import ZArith QArith Qcanon List Bool Lia.
From Verif Require Import Base Cluster SpecCluster Dilate SpecDilate Path SpecPath Ensemble SpecEnsemble SpecMoved SpecRoi SpecLineal SpecLinealMoved SpecThin
  ThinTop.
Import ListNotations.
Open Scope Z_scope.

(** ** C119 *)

(** An image and the same image with an axis of one pixel inserted anywhere have the same
    statistics, whatever sequence of images is added.  For [W2c] the region of interest must be
    one for which the call is defined (C42). *)
Theorem C119_statistics_partial : forall asrt per var k roi cs shapes',
  Forall (fun n => 1 <= n < 2 ^ 62) roi -> (length roi < 3)%nat -> (k <= length roi)%nat -> one_measure cs ->
  Forall2 (fun c shape => shapes per roi shape /\
    (two_point shape c \/ along_paths shape c /\ walks_in roi c /\ walks_in (with_axis k 1 roi) c)) cs shapes' ->
  exists e0 e0' e e', ensemble asrt roi per var = Ok e0 /\ ensemble asrt (with_axis k 1 roi) per var = Ok e0' /\
    run asrt cs e0 = Ok e /\
    run asrt (map (fun x => reshaped_call (with_axis k 1 (snd x)) (fst x)) (combine cs shapes')) e0' = Ok e' /\
    forall r, pixel roi r -> pixel (with_axis k 1 roi) r /\ same_at e r e' r.
Proof. exact thin_sequence. Qed.
Print Assumptions C119_statistics_partial.

Theorem C119_W2c_refuted : exists roi shape cl ce f e e' r,
  shapes true roi shape /\ is_image shape cl /\ is_image shape ce /\ is_image shape f /\
  walks_in roi (CallW2c cl ce f None Bresenham) /\
  shapes true (with_axis 0 1 roi) (with_axis 0 1 shape) /\ coverable Bresenham (with_axis 0 1 roi) /\
  fresh true roi true true (CallW2c cl ce f None Bresenham) = Ok e /\
  fresh true (with_axis 0 1 roi) true true (reshaped_call (with_axis 0 1 shape) (CallW2c cl ce f None Bresenham)) = Ok e' /\
  pixel roi r /\ result_at e r = Exact 1%Qc /\ result_at e' r = Exact 0%Qc.
Proof. exact thin_W2c. Qed.
Print Assumptions C119_W2c_refuted.

(** The labels are the same, number by number. *)
Theorem C119_clusters : forall asrt shape img per k,
  good_shape shape -> (length shape < 3)%nat -> (k <= length shape)%nat -> lenZ img = zprod shape ->
  exists lab, clusters asrt shape img per = Ok lab /\ clusters asrt (with_axis k 1 shape) img per = Ok lab.
Proof. exact thin_clusters. Qed.
Print Assumptions C119_clusters.

(** The dilated foreground is the same. *)
Theorem C119_dilate : forall asrt shape f ks kv n per k,
  dilatable_n per shape f ks kv -> 0 <= n -> (length shape < 3)%nat -> (k <= length shape)%nat ->
  exists ret ret', dilate_n asrt shape f ks kv n per = Ok ret /\
    dilate_n asrt (with_axis k 1 shape) f (with_axis k 1 ks) kv n per = Ok ret' /\ lenZ ret' = lenZ ret /\
    forall p, pixel shape p -> (zn ret p <> 0 <-> zn ret' p <> 0).
Proof. exact thin_dilate. Qed.
Print Assumptions C119_dilate.

(** Not with the default kernel, which in three dimensions has more than the faces. *)
Theorem C119_default_kernel_refuted : exists shape f ret ret',
  image shape f /\ dilate_default_n true shape f 1 false = Ok ret /\
  dilate_default_n true (with_axis 0 1 shape) f 1 false = Ok ret' /\
  exists p, pixel shape p /\ zn ret p = 0 /\ zn ret' p <> 0.
Proof. exact thin_default. Qed.
Print Assumptions C119_default_kernel_refuted.

(** Two images of different shapes as layers; stretches along the rounded and the complete
    paths; labels in the periodic layer. *)
Example C119_case :
  let cs := [CallHH (mkimg [3; 4] (map zq [1;2;3;4; 5;6;7;8; 9;8;7;6])) None;
             CallHH (mkimg [2; 5] (map zq [1;2;3;4;5; 6;7;8;9;0])) (Some (mkimg [2; 5] [0;0;1;0;0; 0;0;0;1;0]))] in
  one_measure cs /\
  Forall2 (fun c shape => shapes false [3; 3] shape /\
    (two_point shape c \/ along_paths shape c /\ walks_in [3; 3] c /\ walks_in (with_axis 0 1 [3; 3]) c)) cs [[3; 4]; [2; 5]] /\
  (let c := CallL (mkimg [2; 3] [1;1;0; 0;1;1]) full in
   shapes true [3; 3] [2; 3] /\ along_paths [2; 3] c /\ walks_in [3; 3] c /\ walks_in (with_axis 1 1 [3; 3]) c) /\
  with_axis 1 1 [3; 4] = [3; 1; 4] /\
  clusters true [1; 3; 4] [1;0;0;1; 1;0;2;0; 0;0;5;0] true = Ok [1;0;0;1; 1;0;2;0; 0;0;2;0].
Proof.
  split; [|split; [|split; [|split; vm_compute; reflexivity]]].
  - exists S_heightheight. intros c [<-|[<-|[]]]; reflexivity.
  - assert (S : forall roi a b, length roi = 2%nat -> Forall (fun n => 1 <= n < 2 ^ 62) roi -> 1 <= a -> 1 <= b -> shapes false roi [a; b]).
    { intros roi a b L F A B. split; [exact L|]. split; [cbn; lia|]. split; auto. split; [repeat constructor; auto|discriminate]. }
    constructor; [|constructor; [|constructor]]; (split; [apply S; try reflexivity; try lia; repeat constructor; lia|]); left; (split; [split; reflexivity|]).
    + discriminate.
    + intros fm E. injection E as <-. split; [split; reflexivity|]. intros x IN. cbn in IN. intuition lia.
  - cbv zeta. split. { split; [reflexivity|]. split; [cbn; lia|]. split; [repeat constructor; lia|]. split; [repeat constructor; lia|]. intros _. vm_compute. repeat split; discriminate. }
    split; [split; reflexivity|]. split; cbn; repeat constructor; lia.
Qed.
