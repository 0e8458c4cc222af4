(** * Properties_Row: C151

    Clusters of an image of one axis.  Statements only; [row_label], [filled], [bonds] are defined
    in SpecRow. *)

From Coq Require Import ZArith QArith Qcanon List Bool Lia.
From Verif Require Import Base Cluster SpecCluster Path SpecPath Ensemble SpecEnsemble SpecLineal SpecRow RowTop RowLineal.
Import ListNotations.
Open Scope Z_scope.

(** ** C151 In one dimension the clusters are the stretches of foreground *)

Theorem C151_labels : forall asrt per img, lenZ img < big ->
  clusters asrt [lenZ img] img per = Ok (map (row_label per img) (zrange 0 (lenZ img))).
Proof. exact row_clusters. Qed.
Print Assumptions C151_labels.

(** Three stretches; in a periodic image the last one goes on over the boundary in the first. *)
Example C151_case :
  clusters true [9] [7;7;0;1;0;0;2;3;1] false = Ok [1;1;0;2;0;0;3;3;3] /\
  map (row_label false [7;7;0;1;0;0;2;3;1]) (zrange 0 9) = [1;1;0;2;0;0;3;3;3] /\
  clusters true [9] [7;7;0;1;0;0;2;3;1] true = Ok [1;1;0;2;0;0;1;1;1] /\
  map (row_label true [7;7;0;1;0;0;2;3;1]) (zrange 0 9) = [1;1;0;2;0;0;1;1;1] /\ lenZ [7;7;0;1;0;0;2;3;1] < big.
Proof. repeat (split; [vm_compute; reflexivity|]). vm_compute. reflexivity. Qed.

(** The number of clusters is the number of foreground pixels less the number of neighbouring
    pairs of these.  A periodic image without background has one cluster and as many pairs as
    pixels. *)
Theorem C151_number : forall asrt per img, lenZ img < big -> per = false \/ (exists v, In v img /\ v = 0) ->
  exists lab, clusters asrt [lenZ img] img per = Ok lab /\
    forall v, 1 <= v <= filled img - bonds per img <-> v <> 0 /\ In v lab.
Proof. exact row_count. Qed.
Print Assumptions C151_number.

Example C151_number_case :
  filled [7;7;0;1;0;0;2;3;1] = 6 /\ bonds false [7;7;0;1;0;0;2;3;1] = 3 /\ bonds true [7;7;0;1;0;0;2;3;1] = 4 /\
  (exists v, In v [7;7;0;1;0;0;2;3;1] /\ v = 0) /\
  filled [1;1;1] - bonds true [1;1;1] = 0 /\ clusters true [3] [1;1;1] true = Ok [1;1;1].
Proof.
  do 3 (split; [vm_compute; reflexivity|]). split; [exists 0; split; [right; right; left; reflexivity|reflexivity]|].
  split; vm_compute; reflexivity.
Qed.

(** So the first step of the lineal path function is the number of clusters, per pixel. *)
Theorem C151_lineal : forall asrt per var k n f mode,
  shapes per [k] [n] -> is_image [n] f -> coverable mode [k] -> 1 < k -> n < big -> per = false \/ In 0 (i_vals f) ->
  exists e lab l0 l1 N, fresh asrt [k] per var (CallL f mode) = Ok e /\ clusters asrt [n] (i_vals f) per = Ok lab /\
    result_at e ((k - 1) / 2) = Exact l0 /\ result_at e ((k - 1) / 2 + 1) = Exact l1 /\
    (forall v, 1 <= v <= N <-> v <> 0 /\ In v lab) /\ zq N = (zq n * (l0 - l1))%Qc.
Proof. exact row_lineal. Qed.
Print Assumptions C151_lineal.

Definition C151_image : img Z := mkimg [9] [7;7;0;1;0;0;2;3;1].

Example C151_lineal_case : shapes true [5] [9] /\ is_image [9] C151_image /\ coverable Bresenham [5] /\ In 0 (i_vals C151_image) /\
  match fresh true [5] true true (CallL C151_image Bresenham) with
  | Ok e => match result_at e 2, result_at e 3 with Exact a, Exact b => this a = (2 # 3)%Q /\ this b = (4 # 9)%Q | _, _ => False end
  | _ => False
  end.
Proof.
  split. { split; [reflexivity|]. split; [cbn; lia|]. split; [repeat (constructor; [lia|]); constructor|]. split; [repeat (constructor; [lia|]); constructor|]. intros _. repeat constructor; cbn; lia. }
  split; [split; reflexivity|]. split; [repeat (constructor; [lia|]); constructor|]. split; [right; right; left; reflexivity|]. vm_compute. split; reflexivity.
Qed.
