(** * Properties_Roi: C117, C118

    See properties.jsonl for the English statements; the specification is in SpecEnsemble.v,
    SpecMoved.v, SpecRoi.v, SpecLineal.v and SpecAxis.v. *)

From Coq Require Import ZArith QArith Qcanon List Bool Lia.
From Verif Require Import Base SpecCluster SpecDilate SpecPath Path Ensemble SpecEnsemble SpecMoved SpecRoi SpecLineal SpecAxis
  RoiTop AxisTop.
Import ListNotations.
Open Scope Z_scope.

(** ** C117 *)

(** Whatever images are added to two ensembles that differ in the region of interest: at the
    same offset they hold the same. *)
Theorem C117_two_point_partial : forall asrt per var roi roi' cs,
  Forall (fun n => 1 <= n < 2 ^ 62) roi -> Forall (fun n => 1 <= n < 2 ^ 62) roi' ->
  (length roi <= 3)%nat -> (length roi' <= 3)%nat -> one_measure cs ->
  (forall c, In c cs -> exists shape, shapes per roi shape /\ shapes per roi' shape /\ two_point shape c) ->
  exists e0 e0' e e', ensemble asrt roi per var = Ok e0 /\ ensemble asrt roi' per var = Ok e0' /\
    run asrt cs e0 = Ok e /\ run asrt cs e0' = Ok e' /\
    forall r r', pixel roi r -> pixel roi' r' -> offset roi' r' = offset roi r -> same_at e r e' r'.
Proof. exact roi_sequence. Qed.
Print Assumptions C117_two_point_partial.

(** A region that is not smaller along any axis has all the offsets. *)
Theorem C117_larger : forall roi roi' r, Forall (fun n => 1 <= n) roi -> Forall2 Z.le roi roi' -> pixel roi r ->
  exists r', pixel roi' r' /\ offset roi' r' = offset roi r.
Proof. exact roi_larger. Qed.
Print Assumptions C117_larger.

(** For the lineal path function it is so along the axes; then the kind of path does not matter
    either. *)
Theorem C117_L_axes_partial : forall asrt per var roi roi' shape f mode mode',
  shapes per roi shape -> shapes per roi' shape -> is_image shape f ->
  coverable mode roi -> coverable mode' roi' -> (exists n, In n roi /\ 1 < n) -> (exists n, In n roi' /\ 1 < n) ->
  exists e e', fresh asrt roi per var (CallL f mode) = Ok e /\ fresh asrt roi' per var (CallL f mode') = Ok e' /\
    forall r r' a t, pixel roi r -> pixel roi' r' -> (a < length shape)%nat ->
      offset roi r = along (length shape) a t -> offset roi' r' = along (length shape) a t -> result_at e r = result_at e' r'.
Proof. exact L_axis_any. Qed.
Print Assumptions C117_L_axes_partial.

Theorem C117_L_refuted : exists roi roi' shape f e e' r r',
  shapes true roi shape /\ shapes true roi' shape /\ is_image shape f /\ coverable Bresenham roi /\ coverable Bresenham roi' /\
  fresh true roi true true (CallL f Bresenham) = Ok e /\ fresh true roi' true true (CallL f Bresenham) = Ok e' /\
  pixel roi r /\ pixel roi' r' /\ offset roi' r' = offset roi r /\
  result_at e r = Exact 0%Qc /\ result_at e' r' <> Exact 0%Qc.
Proof. exact roi_L. Qed.
Print Assumptions C117_L_refuted.

Theorem C117_W2c_refuted : exists roi roi' shape cl f e e' r r',
  shapes true roi shape /\ shapes true roi' shape /\ is_image shape cl /\ is_image shape f /\ coverable Bresenham roi /\ coverable Bresenham roi' /\
  fresh true roi true true (CallW2c cl cl f None Bresenham) = Ok e /\ fresh true roi' true true (CallW2c cl cl f None Bresenham) = Ok e' /\
  pixel roi r /\ pixel roi' r' /\ offset roi' r' = offset roi r /\
  result_at e r = Exact (zq 1 / zq 6)%Qc /\ result_at e' r' = Exact (zq 1 / zq 8)%Qc.
Proof. exact roi_W2c. Qed.
Print Assumptions C117_W2c_refuted.

(** Two regions and images of different shapes, with and without a mask. *)
Example C117_case :
  let cs := [CallHH (mkimg [3; 4] (map zq [1;2;3;4; 5;6;7;8; 9;8;7;6])) None;
             CallHH (mkimg [2; 5] (map zq [1;2;3;4;5; 6;7;8;9;0])) (Some (mkimg [2; 5] [0;0;1;0;0; 0;0;0;1;0]))] in
  one_measure cs /\
  (forall c, In c cs -> exists shape, shapes false [3; 3] shape /\ shapes false [4; 7] shape /\ two_point shape c) /\
  Forall2 Z.le [3; 3] [4; 7] /\ offset [3; 3] 7 = [1; 0] /\ offset [4; 7] 17 = [1; 0].
Proof.
  split; [|split; [|split; [repeat constructor; lia|split; reflexivity]]].
  - exists S_heightheight. intros c [<-|[<-|[]]]; reflexivity.
  - assert (S : forall roi a b, length roi = 2%nat -> Forall (fun n => 1 <= n < 2 ^ 62) roi -> 1 <= a -> 1 <= b -> shapes false roi [a; b]).
    { intros roi a b L F A B. split; [exact L|]. split; [cbn; lia|]. split; auto. split; [repeat constructor; auto|discriminate]. }
    intros c [<-|[<-|[]]]; [exists [3; 4]|exists [2; 5]]; (split; [apply S; try reflexivity; try lia; repeat constructor; lia|]);
      (split; [apply S; try reflexivity; try lia; repeat constructor; lia|]); (split; [split; reflexivity|]).
    + discriminate.
    + intros fm E. injection E as <-. split; [split; reflexivity|]. intros x IN. cbn in IN. intuition lia.
Qed.

(** ** C118 *)

(** In any dimension, with any region of interest and any kind of path: the value at [t] pixels
    along an axis is the fraction of pixels from which the stretch of [t] pixels along that axis
    is completely in the phase. *)
Theorem C118_L_along_axes : forall asrt per var roi shape f mode,
  shapes per roi shape -> is_image shape f -> coverable mode roi -> (exists n, In n roi /\ 1 < n) ->
  exists e, fresh asrt roi per var (CallL f mode) = Ok e /\
    forall r a t, pixel roi r -> (a < length roi)%nat -> offset roi r = along (length roi) a t ->
      result_at e r = Exact (straight_fraction per shape (i_vals f) a t).
Proof. exact L_axis. Qed.
Print Assumptions C118_L_along_axes.

Theorem C118_L_axes_decay_and_are_even : forall asrt per var roi shape f mode,
  shapes per roi shape -> is_image shape f -> coverable mode roi -> (exists n, In n roi /\ 1 < n) ->
  exists e, fresh asrt roi per var (CallL f mode) = Ok e /\
    forall r r' a t t', pixel roi r -> pixel roi r' -> (a < length roi)%nat ->
      offset roi r = along (length roi) a t -> offset roi r' = along (length roi) a t' ->
      exists l l', result_at e r = Exact l /\ result_at e r' = Exact l' /\
        (0 <= t <= t' \/ t' <= t <= 0 -> (l' <= l)%Qc) /\ (t' = - t -> l' = l).
Proof. exact L_axis_laws. Qed.
Print Assumptions C118_L_axes_decay_and_are_even.

Example C118_case :
  shapes true [3; 5] [2; 4] /\ coverable Bresenham [3; 5] /\ coverable actual [3; 5] /\ (exists n, In n [3; 5] /\ 1 < n) /\
  offset [3; 5] 9 = along 2 1 2 /\ offset [3; 5] 2 = along 2 0 (-1) /\
  filter (straight true [2; 4] [1;1;0;1; 1;1;1;0] 1 2) (pixels [2; 4]) = [3; 4] /\
  filter (straight false [2; 4] [1;1;0;1; 1;1;1;0] 1 2) (pixels [2; 4]) = [4] /\
  filter (straight false [2; 4] [1;1;0;1; 1;1;1;0] 0 (-1)) (pixels [2; 4]) = [4; 5].
Proof.
  split. { split; [reflexivity|]. split; [cbn; lia|]. split; [repeat constructor; lia|]. split; [repeat constructor; lia|]. intros _. vm_compute. repeat split; discriminate. }
  split; [repeat constructor; lia|]. split; [repeat constructor; lia|]. split; [exists 3; simpl; auto with zarith|].
  repeat split; vm_compute; reflexivity.
Qed.
