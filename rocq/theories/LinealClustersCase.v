(** * LinealClustersCase: witnesses for C110 (proofs only) *)

From Coq Require Import ZArith QArith Qcanon List Bool Lia.
From Verif Require Import Base BaseLemmas Cluster SpecCluster ClusterGeom KernelProofs ClusterTop SpecDilate Path Ensemble SpecEnsemble EnsembleRefute.
Import ListNotations.
Open Scope Z_scope.

Ltac shapes_case := unfold shapes; split; [reflexivity|]; split; [cbn; lia|]; split; [repeat constructor; lia|]; split; [repeat constructor; lia|];
  intros; vm_compute; intuition discriminate.
Ltac good_case := split; [discriminate|split; [repeat constructor; discriminate|reflexivity]].

Lemma above : forall (mode : path_mode) (x : res ens) (y : res ens),
  match x, y with Ok e, Ok e' => shown (result_at e 8) = Some (2 # 9) /\ shown (result_at e' 8) = Some 0%Q | _, _ => False end ->
  exists e e' l c, x = Ok e /\ y = Ok e' /\ result_at e 8 = Exact l /\ result_at e' 8 = Exact c /\ (c < l)%Qc.
Proof.
  intros mode x y H. destruct x as [e| | |]; try contradiction. destruct y as [e'| | |]; try contradiction. destruct H as [H1 H2].
  destruct (result_at e 8) as [l| |] eqn:E1; try discriminate. destruct (result_at e' 8) as [c| |] eqn:E2; try discriminate.
  exists e, e', l, c. repeat (split; [auto; fail|]). cbn [shown] in *. injection H1 as H1. injection H2 as H2.
  unfold Qclt. rewrite H1, H2. reflexivity.
Qed.

Definition diagonal : img Z := mkimg [3; 3] [1;0;0; 0;1;0; 0;0;1].

Lemma bresenham_above : exists roi shape f lab e e' r l c, shapes false roi shape /\ good_shape shape /\ is_image shape f /\ walkable Bresenham roi /\
  clusters true shape (i_vals f) false = Ok lab /\
  fresh true roi false true (CallL f Bresenham) = Ok e /\
  fresh true roi false true (CallC2 (mkimg shape lab) (mkimg shape lab) None) = Ok e' /\
  pixel roi r /\ result_at e r = Exact l /\ result_at e' r = Exact c /\ (c < l)%Qc.
Proof.
  exists [3; 3], [3; 3], diagonal, [1;0;0; 0;2;0; 0;0;3].
  destruct (above Bresenham (fresh true [3; 3] false true (CallL diagonal Bresenham))
    (fresh true [3; 3] false true (CallC2 (mkimg [3; 3] [1;0;0; 0;2;0; 0;0;3]) (mkimg [3; 3] [1;0;0; 0;2;0; 0;0;3]) None))) as (e & e' & l & c & H1 & H2 & H3 & H4 & H5).
  { vm_compute. split; reflexivity. }
  exists e, e', 8, l, c. split; [shapes_case|]. split; [good_case|]. split; [split; reflexivity|]. split; [repeat constructor; lia|].
  split; [vm_compute; reflexivity|]. split; auto. split; auto. split; [unfold pixel; cbn; lia|]. auto.
Qed.

Lemma actual_above : exists roi shape f lab e e' r l c, shapes false roi shape /\ good_shape shape /\ is_image shape f /\ walkable actual roi /\
  clusters true shape (i_vals f) false = Ok lab /\
  fresh true roi false true (CallL f actual) = Ok e /\
  fresh true roi false true (CallC2 (mkimg shape lab) (mkimg shape lab) None) = Ok e' /\
  pixel roi r /\ result_at e r = Exact l /\ result_at e' r = Exact c /\ (c < l)%Qc.
Proof.
  exists [3; 3], [3; 3], diagonal, [1;0;0; 0;2;0; 0;0;3].
  destruct (above actual (fresh true [3; 3] false true (CallL diagonal actual))
    (fresh true [3; 3] false true (CallC2 (mkimg [3; 3] [1;0;0; 0;2;0; 0;0;3]) (mkimg [3; 3] [1;0;0; 0;2;0; 0;0;3]) None))) as (e & e' & l & c & H1 & H2 & H3 & H4 & H5).
  { vm_compute. split; reflexivity. }
  exists e, e', 8, l, c. split; [shapes_case|]. split; [good_case|]. split; [split; reflexivity|]. split; [repeat constructor; lia|].
  split; [vm_compute; reflexivity|]. split; auto. split; auto. split; [unfold pixel; cbn; lia|]. auto.
Qed.

Lemma two_clusters :
  shapes true [3; 3] [3; 4] /\ good_shape [3; 4] /\ is_image [3; 4] (mkimg [3; 4] [1;1;0;0; 0;1;0;0; 0;0;1;0]) /\ walkable full [3; 3] /\
  clusters true [3; 4] [1;1;0;0; 0;1;0;0; 0;0;1;0] false = Ok [1;1;0;0; 0;1;0;0; 0;0;2;0] /\
  clusters true [3; 4] [1;1;0;0; 0;1;0;0; 0;0;1;0] true = Ok [1;1;0;0; 0;1;0;0; 0;0;2;0].
Proof.
  split; [shapes_case|]. split; [good_case|]. split; [split; reflexivity|]. split; [repeat constructor; lia|]. vm_compute. auto.
Qed.

Lemma all_neighbours :
  good_kernel [3; 4] [3; 3] [1;1;1; 1;1;1; 1;1;1] /\ kernel_symmetric [3; 3] [1;1;1; 1;1;1; 1;1;1] /\
  offsets_in_range false [3; 4] (set_offset [3; 3] [1;1;1; 1;1;1; 1;1;1]) /\
  (forall d, length d = length [3; 4] -> Forall (fun x => -1 <= x <= 1) d -> set_offset [3; 3] [1;1;1; 1;1;1; 1;1;1] d).
Proof.
  assert (K : good_kernel [3; 4] [3; 3] [1;1;1; 1;1;1; 1;1;1]).
  { split; [reflexivity|]. split; [repeat constructor; unfold big; lia|]. split; [reflexivity|].
    intros p Hp Hc. rewrite coords2 in Hc. injection Hc as E1 E2.
    pose proof (Z.div_mod p 3 ltac:(lia)). change (3 / 2) with 1 in *. assert (p = 4) as -> by lia. reflexivity. }
  assert (D : forall d, length d = length [3; 4] -> Forall (fun x => -1 <= x <= 1) d -> set_offset [3; 3] [1;1;1; 1;1;1; 1;1;1] d).
  { intros [|a [|b [|c d]]] L F; cbn in L; try lia. repeat match goal with HF : Forall _ (_ :: _) |- _ => inversion HF; clear HF; subst end.
    assert (A : a = -1 \/ a = 0 \/ a = 1) by lia. assert (B : b = -1 \/ b = 0 \/ b = 1) by lia.
    exists (4 + 3 * a + b). destruct A as [->|[->| ->]], B as [->|[->| ->]]; (split; [unfold pixel; cbn; lia|split; [discriminate|vm_compute; auto]]). }
  split; auto. split; [|split; auto; cbn; intros; lia].
  intros d (p & Hp & _ & M). apply D.
  - rewrite map_length. rewrite coords2 in M. cbn [centre map] in M. destruct d as [|a [|b [|c d]]]; cbn in M; [exfalso; tauto|exfalso; tauto|reflexivity|exfalso; tauto].
  - rewrite coords2 in M. cbn [centre map] in M. destruct d as [|a [|b [|c d]]]; cbn [moved] in M; [exfalso; tauto|exfalso; tauto| |exfalso; tauto]. destruct M as (M1 & M2 & _).
    unfold pixel in Hp. cbn [zprod] in Hp. change (3 / 2) with 1 in *. cbn [map]. assert (0 <= p / 3 <= 2 /\ 0 <= p mod 3 <= 2) by (Z.to_euclidean_division_equations; lia).
    repeat constructor; lia.
Qed.
