(** * Properties_Euler: C152

    Bounds on the number of clusters.  Statements only; [edges], [pairs_once] and [foreground] are defined in
    SpecEuler, [indicator] in SpecAlgebra, [along] in SpecAxis. *)

From Coq Require Import ZArith QArith Qcanon List Bool Lia.
From Verif Require Import Base Ensemble SpecEnsemble SpecAlgebra SpecAxis Cluster SpecCluster ClusterGeom SpecEuler EulerTop EulerS2.
Import ListNotations.
Open Scope Z_scope.

(** ** C152 The number of clusters lies between the number of pixels less the number of neighbouring
    pairs, and the number of pixels *)
Theorem C152_bounds : forall asrt per shape, good_shape shape -> (length shape <= 3)%nat -> forall img, lenZ img = zprod shape ->
  exists lab N, clusters asrt shape img per = Ok lab /\ (forall v, 1 <= v <= N <-> v <> 0 /\ In v lab) /\
    N <= foreground shape img /\ forall B, edges per shape (fun x => pixel shape x /\ zn img x <> 0) B -> foreground shape img - lenZ B <= N.
Proof. exact euler_clusters. Qed.
Print Assumptions C152_bounds.

(** A corner of three pixels and one apart: four pixels, two pairs, two clusters: the bound is met. *)
Example C152_case : let img := [1;0;0; 1;1;0; 0;0;1] in
  good_shape [3; 3] /\ lenZ img = zprod [3; 3] /\ foreground [3; 3] img = 4 /\
  edges false [3; 3] (fun x => pixel [3; 3] x /\ zn img x <> 0) [(0, 3); (3, 4)] /\
  clusters true [3; 3] img false = Ok [1;0;0; 1;1;0; 0;0;2].
Proof.
  cbv zeta. split. { split; [discriminate|]. split; [repeat constructor; lia|reflexivity]. }
  split; [reflexivity|]. split; [reflexivity|]. split.
  - split. { repeat constructor; cbn; intuition discriminate. }
    intros x y. split.
    + intros [E|[E|[]]]; inversion E; subst; (split; [lia|]); repeat split; try (cbn; lia); try (vm_compute; intuition discriminate).
    + intros (LT & [Px Nx] & [Py Ny] & (_ & _ & F)). unfold pixel in Px, Py. change (zprod [3; 3]) with 9 in *.
      assert (Hx : x = 0 \/ x = 3 \/ x = 4 \/ x = 8).
      { assert (C : x = 0 \/ x = 1 \/ x = 2 \/ x = 3 \/ x = 4 \/ x = 5 \/ x = 6 \/ x = 7 \/ x = 8) by lia.
        repeat (destruct C as [C|C]; [subst x; cbn in Nx; try tauto; try congruence|]). subst x. tauto. }
      assert (Hy : y = 0 \/ y = 3 \/ y = 4 \/ y = 8).
      { assert (C : y = 0 \/ y = 1 \/ y = 2 \/ y = 3 \/ y = 4 \/ y = 5 \/ y = 6 \/ y = 7 \/ y = 8) by lia.
        repeat (destruct C as [C|C]; [subst y; cbn in Ny; try tauto; try congruence|]). subst y. tauto. }
      destruct Hx as [-> |[-> |[-> | ->]]]; destruct Hy as [-> |[-> |[-> | ->]]]; try lia; try (left; reflexivity); try (right; left; reflexivity);
        exfalso; cbn in F; intuition discriminate.
  - vm_compute. reflexivity.
Qed.

(** The same for a labeller with a symmetric kernel of any rank. *)
Theorem C152_labellers : forall asrt shape per ks kv, good_shape shape -> good_kernel shape ks kv -> kernel_symmetric ks kv -> offsets_in_range per shape (set_offset ks kv) ->
  forall img, lenZ img = zprod shape ->
  exists g s outs N, make_kernel asrt shape per ks kv = Ok g /\ run asrt g [AddImage shape img; Prune] = Ok (s, outs) /\
    (forall v, 1 <= v <= N <-> v <> 0 /\ In v (c_label s)) /\
    N <= foreground shape img /\
    forall B, pairs_once (kernel_neighbour per shape ks kv) (fun x => pixel shape x /\ zn img x <> 0) B -> foreground shape img - lenZ B <= N.
Proof. exact euler_labeller. Qed.
Print Assumptions C152_labellers.

(** A kernel of five pixels on a row of six: three pixels, one pair, two clusters. *)
Example C152_labellers_case : let ks := [5] in let kv := [1;1;1;1;1] in let img := [1;0;1;0;0;1] in
  good_shape [6] /\ good_kernel [6] ks kv /\ kernel_symmetric ks kv /\ offsets_in_range false [6] (set_offset ks kv) /\
  lenZ img = zprod [6] /\ foreground [6] img = 3 /\
  pairs_once (kernel_neighbour false [6] ks kv) (fun x => pixel [6] x /\ zn img x <> 0) [(0, 2)] /\
  exists g s outs, make_kernel true [6] false ks kv = Ok g /\ run true g [AddImage [6] img; Prune] = Ok (s, outs) /\ c_label s = [1;0;1;0;0;2].
Proof.
  cbv zeta.
  assert (O5 : forall d, set_offset [5] [1;1;1;1;1] d <-> exists t, d = [t] /\ -2 <= t <= 2).
  { intro d. split.
    - intros (p & Hp & _ & M). rewrite coords1 in M. destruct d as [|t [|? ?]]; cbn [moved centre map] in M; try tauto. exists t. unfold pixel in Hp. cbn in Hp.
      split; [reflexivity|]. change (5 / 2) with 2 in M. lia.
    - intros (t & -> & Ht). exists (2 + t). split; [unfold pixel; cbn [zprod fold_right]; lia|]. split.
      + assert (C : t = -2 \/ t = -1 \/ t = 0 \/ t = 1 \/ t = 2) by lia. destruct C as [-> |[-> |[-> |[-> | ->]]]]; discriminate.
      + rewrite coords1. cbn [moved centre map]. split; [reflexivity|exact I]. }
  split. { split; [discriminate|]. split; [repeat constructor; lia|reflexivity]. }
  split. { split; [reflexivity|]. split; [repeat constructor; unfold big; lia|]. split; [reflexivity|]. intros p _ H. rewrite coords1 in H. injection H as ->. reflexivity. }
  split. { intros d H. apply O5 in H. destruct H as (t & -> & Ht). apply O5. exists (- t). split; [reflexivity|lia]. }
  split. { cbn. discriminate. }
  split; [reflexivity|]. split; [reflexivity|]. split.
  - split. { repeat constructor; cbn; tauto. }
    intros x y. split.
    + intros [E|[]]. inversion E; subst. split; [lia|]. split; [split; [unfold pixel; cbn; lia|discriminate]|]. split; [split; [unfold pixel; cbn; lia|discriminate]|].
      split; [unfold pixel; cbn; lia|]. split; [unfold pixel; cbn; lia|]. exists [2]. split; [apply O5; exists 2; split; [reflexivity|lia]|]. rewrite !coords1. cbn [moved]. split; [reflexivity|exact I].
    + intros (LT & [Px Nx] & [Py Ny] & (_ & _ & d & Hd & M)). apply O5 in Hd. destruct Hd as (t & -> & Ht). rewrite !coords1 in M. cbn [moved] in M. destruct M as [M _].
      unfold pixel in Px, Py. change (zprod [6]) with 6 in *.
      assert (Hx : x = 0 \/ x = 2 \/ x = 5).
      { clear M. assert (C : x = 0 \/ x = 1 \/ x = 2 \/ x = 3 \/ x = 4 \/ x = 5) by lia.
        repeat (destruct C as [C|C]; [subst x; cbn in Nx; try tauto; try congruence|]). subst x. tauto. }
      assert (Hy : y = 0 \/ y = 2 \/ y = 5).
      { clear M. assert (C : y = 0 \/ y = 1 \/ y = 2 \/ y = 3 \/ y = 4 \/ y = 5) by lia.
        repeat (destruct C as [C|C]; [subst y; cbn in Ny; try tauto; try congruence|]). subst y. tauto. }
      left. f_equal; lia.
  - do 3 eexists. split; [reflexivity|]. split; [vm_compute; reflexivity|]. reflexivity.
Qed.

(** The bounds measured by S2: its sum at the centre counts the pixels of the phase, those one pixel
    away along each of the axes count the pairs of neighbours. *)
Theorem C152_by_S2 : forall asrt per var roi shape f, shapes per roi shape -> good_shape shape -> is_image shape f ->
  exists lab N e, clusters asrt shape (i_vals f) per = Ok lab /\ (forall v, 1 <= v <= N <-> v <> 0 /\ In v lab) /\
    fresh asrt roi per var (CallS2 (indicator f) (indicator f) None) = Ok e /\
    forall r0 rs, pixel roi r0 -> offset roi r0 = along (length shape) 0 0 ->
      Forall2 (fun a r => pixel roi r /\ offset roi r = along (length shape) a 1) (seq 0 (length shape)) rs ->
      (zq N <= first_at e r0)%Qc /\ (first_at e r0 <= zq N + sum_over rs (first_at e))%Qc.
Proof. exact euler_S2. Qed.
Print Assumptions C152_by_S2.

(** The image of [C152_case]: four pixels, one pair along either axis, two clusters. *)
Example C152_by_S2_case : let f := mkimg [3; 3] [1;0;0; 1;1;0; 0;0;1] in
  shapes false [3; 3] [3; 3] /\ is_image [3; 3] f /\ pixel [3; 3] 4 /\ offset [3; 3] 4 = along 2 0 0 /\
  Forall2 (fun a r => pixel [3; 3] r /\ offset [3; 3] r = along 2 a 1) [0%nat; 1%nat] [7; 5] /\
  (exists e, fresh true [3; 3] false true (CallS2 (indicator f) (indicator f) None) = Ok e /\ map (first_at e) [4; 7; 5] = map zq [4; 1; 1]).
Proof.
  cbv zeta. split. { unfold shapes. split; [reflexivity|]. split; [cbn; lia|]. split; [repeat constructor; lia|]. split; [repeat constructor; lia|]. discriminate. }
  split; [split; reflexivity|]. split; [unfold pixel; cbn; lia|]. split; [reflexivity|].
  split. { constructor; [split; [unfold pixel; cbn; lia|reflexivity]|]. constructor; [split; [unfold pixel; cbn; lia|reflexivity]|constructor]. }
  eexists; split; [vm_compute; reflexivity|vm_compute; reflexivity].
Qed.
