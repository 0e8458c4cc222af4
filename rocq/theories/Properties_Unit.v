(** * Properties_Unit: C153

    At a distance of one pixel C2 of the clusters and L are S2 of the phase.  Statements only; [indicator] is defined in
    SpecAlgebra, [along] in SpecAxis. *)

From Coq Require Import ZArith QArith Qcanon List Bool Lia.
From Verif Require Import Base Array3 Ensemble SpecEnsemble Path SpecLineal SpecSymmetry SpecAlgebra SpecAxis SpecCluster Cluster ClusterGeom UnitTop UnitLineal UnitKernel.
Import ListNotations.
Open Scope Z_scope.

(** ** C153 Up to one pixel away along an axis, C2 of the clusters equals S2 of the phase, with any masks *)
Theorem C153_near : forall asrt per var roi shape f m, shapes per roi shape -> good_shape shape -> is_image shape f -> masks_of shape m ->
  exists lab e e', clusters asrt shape (i_vals f) per = Ok lab /\
    fresh asrt roi per var (CallC2 (mkimg shape lab) (mkimg shape lab) m) = Ok e /\
    fresh asrt roi per var (CallS2 (indicator f) (indicator f) m) = Ok e' /\
    forall r a t, pixel roi r -> (a < length shape)%nat -> -1 <= t <= 1 -> offset roi r = along (length shape) a t ->
      first_at e r = first_at e' r /\ norm_at e r = norm_at e' r /\ result_at e r = result_at e' r.
Proof. exact C2_is_S2_near. Qed.
Print Assumptions C153_near.

(** A row of six pixels, periodic, and a mask that hides one of them: the second and the fourth
    entry of the five are one pixel away from the middle.  The sums are those without a mask: two
    pixels away C2 and S2 differ. *)
Definition C153_image : img Z := mkimg [6] [4; 7; 0; 1; 0; -2].
Definition C153_mask : img Z := mkimg [6] [0; 1; 0; 0; 0; 0].
Example C153_case :
  shapes true [5] [6] /\ good_shape [6] /\ is_image [6] C153_image /\ masks_of [6] (Some (C153_mask, C153_mask)) /\
  map (offset [5]) [1; 2; 3] = map (along 1 0) [-1; 0; 1] /\
  clusters true [6] (i_vals C153_image) true = Ok [1; 1; 0; 2; 0; 1] /\
  (exists e, fresh true [5] true true (CallC2 (mkimg [6] [1; 1; 0; 2; 0; 1]) (mkimg [6] [1; 1; 0; 2; 0; 1]) None) = Ok e /\ data_first e = map zq [1; 2; 4; 2; 1]) /\
  (exists e, fresh true [5] true true (CallS2 (indicator C153_image) (indicator C153_image) None) = Ok e /\ data_first e = map zq [3; 2; 4; 2; 3]).
Proof.
  split. { unfold shapes. split; [reflexivity|]. split; [cbn; lia|]. split; [repeat constructor; lia|]. split; [repeat constructor; lia|]. intros _. cbn. lia. }
  split. { split; [discriminate|]. split; [repeat constructor; lia|reflexivity]. }
  split; [split; reflexivity|]. split. { cbn [masks_of C153_mask]. unfold is_mask, is_image. cbn. intuition lia. }
  split; [reflexivity|]. split; [vm_compute; reflexivity|].
  split; (eexists; split; [vm_compute; reflexivity|vm_compute; reflexivity]).
Qed.

(** The lineal path function counts the same pairs, with any kind of path; it divides by the number of
    pixels of the image, so in a periodic image it is S2. *)
Theorem C153_lineal : forall asrt per var roi shape f mode, shapes per roi shape -> is_image shape f -> coverable mode roi -> (exists n, In n roi /\ 1 < n) ->
  exists e e', fresh asrt roi per var (CallL f mode) = Ok e /\
    fresh asrt roi per var (CallS2 (indicator f) (indicator f) None) = Ok e' /\
    forall r a t, pixel roi r -> (a < length roi)%nat -> -1 <= t <= 1 -> offset roi r = along (length roi) a t ->
      result_at e r = Exact (first_at e' r / zq (zprod shape))%Qc /\ (per = true -> result_at e r = result_at e' r).
Proof. exact L_is_S2_near. Qed.
Print Assumptions C153_lineal.

(** The same row: L is 2/6 one pixel away. *)
Example C153_lineal_case :
  shapes true [5] [6] /\ is_image [6] C153_image /\ coverable Bresenham [5] /\ (exists n, In n [5] /\ 1 < n) /\
  (exists e, fresh true [5] true true (CallL C153_image Bresenham) = Ok e /\
     map (result_at e) [1; 3] = map Exact [zq 2 / zq 6; zq 2 / zq 6]%Qc) /\
  (exists e, fresh true [5] true true (CallS2 (indicator C153_image) (indicator C153_image) None) = Ok e /\
     map (first_at e) [1; 3] = map zq [2; 2]).
Proof.
  split. { unfold shapes. split; [reflexivity|]. split; [cbn; lia|]. split; [repeat constructor; lia|]. split; [repeat constructor; lia|]. intros _. cbn. lia. }
  split; [split; reflexivity|]. split. { cbn. repeat constructor; lia. } split. { exists 5. split; [left; reflexivity|lia]. }
  split; (eexists; split; [vm_compute; reflexivity|vm_compute; reflexivity]).
Qed.

(** A labeller with a symmetric kernel, after any history: C2 of the labels is S2 of the labelled pixels at
    every offset of the kernel. *)
Theorem C153_labellers : forall asrt per var roi shape ks kv ops m, shapes per roi shape -> good_shape shape ->
  good_kernel shape ks kv -> kernel_symmetric ks kv -> offsets_in_range per shape (set_offset ks kv) -> Forall (legal shape) ops -> masks_of shape m ->
  exists g s outs e e', make_kernel asrt shape per ks kv = Ok g /\ run asrt g ops = Ok (s, outs) /\
    fresh asrt roi per var (CallC2 (mkimg shape (c_label s)) (mkimg shape (c_label s)) m) = Ok e /\
    fresh asrt roi per var (CallS2 (indicator (mkimg shape (c_label s))) (indicator (mkimg shape (c_label s))) m) = Ok e' /\
    forall r, pixel roi r -> set_offset ks kv (offset roi r) ->
      first_at e r = first_at e' r /\ norm_at e r = norm_at e' r /\ result_at e r = result_at e' r.
Proof. exact C2_is_S2_kernel. Qed.
Print Assumptions C153_labellers.

(** A kernel of five pixels on a row of six: C2 and S2 agree up to two pixels away, and differ three away. *)
Example C153_labellers_case : let ks := [5] in let kv := [1;1;1;1;1] in let ops := [AddPoints [5; 0]; AddSequence [2]; Prune] in let lab := mkimg [6] [2;0;2;0;0;1] in
  shapes false [7] [6] /\
  good_shape [6] /\ good_kernel [6] ks kv /\ kernel_symmetric ks kv /\ offsets_in_range false [6] (set_offset ks kv) /\
  Forall (legal [6]) ops /\ set_offset ks kv (offset [7] 5) /\ offset [7] 5 = [2] /\
  (exists g s outs, make_kernel true [6] false ks kv = Ok g /\ run true g ops = Ok (s, outs) /\ c_label s = i_vals lab) /\
  (exists e, fresh true [7] false true (CallC2 lab lab None) = Ok e /\ data_first e = map zq [0; 1; 0; 3; 0; 1; 0]) /\
  (exists e, fresh true [7] false true (CallS2 (indicator lab) (indicator lab) None) = Ok e /\ data_first e = map zq [1; 1; 0; 3; 0; 1; 1]).
Proof.
  cbv zeta.
  assert (O5 : forall d, set_offset [5] [1;1;1;1;1] d <-> exists t, d = [t] /\ -2 <= t <= 2).
  { intro d. split.
    - intros (p & Hp & _ & M). rewrite coords1 in M. destruct d as [|t [|? ?]]; cbn [moved centre map] in M; try tauto. exists t. unfold pixel in Hp. cbn in Hp.
      split; [reflexivity|]. change (5 / 2) with 2 in M. lia.
    - intros (t & -> & Ht). exists (2 + t). split; [unfold pixel; cbn [zprod fold_right]; lia|]. split.
      + assert (C : t = -2 \/ t = -1 \/ t = 0 \/ t = 1 \/ t = 2) by lia. destruct C as [-> |[-> |[-> |[-> | ->]]]]; discriminate.
      + rewrite coords1. cbn [moved centre map]. split; [reflexivity|exact I]. }
  split. { unfold shapes. split; [reflexivity|]. split; [cbn; lia|]. split; [repeat constructor; lia|]. split; [repeat constructor; lia|]. discriminate. }
  split. { split; [discriminate|]. split; [repeat constructor; lia|reflexivity]. }
  split. { split; [reflexivity|]. split; [repeat constructor; unfold big; lia|]. split; [reflexivity|]. intros p _ H. rewrite coords1 in H. injection H as ->. reflexivity. }
  split. { intros d H. apply O5 in H. destruct H as (t & -> & Ht). apply O5. exists (- t). split; [reflexivity|lia]. }
  split. { cbn. discriminate. }
  split. { constructor; [|constructor; [|constructor; [|constructor]]]; cbn; [| |exact I]; [|split; [discriminate|]]; intros p H; unfold pixel; cbn; lia. }
  split. { apply O5. exists 2. split; [reflexivity|lia]. } split; [reflexivity|].
  split. { do 3 eexists. split; [reflexivity|]. split; [vm_compute; reflexivity|]. reflexivity. }
  split; (eexists; split; [vm_compute; reflexivity|vm_compute; reflexivity]).
Qed.
