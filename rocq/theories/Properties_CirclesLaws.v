(** * Properties_CirclesLaws: C102 (laws of drawings of circles), C103 (their clusters)

    [ring], [drawn], [covers], [chain], ... are defined in SpecCirclesLaws; [rolls], [flips],
    [transposes], [carried] in SpecSymmetry. *)

From Coq Require Import ZArith List Bool Lia.
From Verif Require Import Base Cluster SpecCluster SpecSymmetry Circles SpecCircles SpecCirclesLaws CirclesLaws.
Import ListNotations.
Open Scope Z_scope.

(** ** C102: only the set of circles matters, ... *)
Theorem C102_order_and_repetition : forall asrt per n m l l', drawable per n m -> (forall c, In c l <-> In c l') ->
  drawn asrt per n m l = drawn asrt per n m l'.
Proof. exact drawn_set. Qed.
Print Assumptions C102_order_and_repetition.

(** ... more and larger circles cover more, ... *)
Theorem C102_monotone : forall asrt per n m l l', drawable per n m ->
  (forall c, In c l -> exists c', In c' l' /\ larger c c') ->
  exists out out', drawn asrt per n m l = Ok out /\ drawn asrt per n m l' = Ok out' /\
    forall p, pixel [n; m] p -> zn out p <= zn out' p.
Proof. exact drawn_larger. Qed.
Print Assumptions C102_monotone.

(** ... the drawing of two lists is the maximum of the two drawings, ... *)
Theorem C102_union : forall asrt per n m l l', drawable per n m ->
  exists a b out, drawn asrt per n m l = Ok a /\ drawn asrt per n m l' = Ok b /\ drawn asrt per n m (l ++ l') = Ok out /\
    forall p, pixel [n; m] p -> zn out p = Z.max (zn a p) (zn b p).
Proof. exact drawn_union. Qed.
Print Assumptions C102_union.

(** ... when periodic, centres count modulo the shape, and moving all circles rolls the
    drawing, ... *)
Theorem C102_centres_modulo_shape : forall asrt n m l l', drawable true n m -> Forall2 (same_ring n m) l l' ->
  drawn asrt true n m l = drawn asrt true n m l'.
Proof. exact drawn_wrapped. Qed.
Print Assumptions C102_centres_modulo_shape.

Theorem C102_rolled : forall asrt n m s t l, 0 < n -> 0 < m ->
  exists out out', drawn asrt true n m l = Ok out /\ drawn asrt true n m (map (move_ring s t) l) = Ok out' /\
    carried (rolls [s; t] [n; m]) out out'.
Proof. exact drawn_rolled. Qed.
Print Assumptions C102_rolled.

(** ... a drawing that is not periodic is part of the periodic one, and all of it if every
    circle fits, ... *)
Theorem C102_periodic_covers_more : forall asrt n m l, 0 < n -> 0 < m ->
  exists out out', drawn asrt false n m l = Ok out /\ drawn asrt true n m l = Ok out' /\
    forall p, pixel [n; m] p -> zn out p <= zn out' p.
Proof. exact drawn_periodic_more. Qed.
Print Assumptions C102_periodic_covers_more.

Theorem C102_fitting : forall asrt n m l, 0 < n -> 0 < m -> Forall (fits n m) l ->
  drawn asrt true n m l = drawn asrt false n m l.
Proof. exact drawn_fits. Qed.
Print Assumptions C102_fitting.

(** ... and flipped or transposed circles give the flipped or transposed drawing. *)
Theorem C102_flipped : forall asrt per n m f0 f1 l, drawable per n m ->
  exists out out', drawn asrt per n m l = Ok out /\ drawn asrt per n m (map (flip_ring f0 f1 n m) l) = Ok out' /\
    carried (flips [f0; f1] [n; m]) out out'.
Proof. exact drawn_flipped. Qed.
Print Assumptions C102_flipped.

Theorem C102_transposed : forall asrt per n m l, drawable per n m ->
  exists out out', drawn asrt per n m l = Ok out /\ drawn asrt per m n (map swap_ring l) = Ok out' /\
    carried (transposes [n; m]) out out'.
Proof. exact drawn_transposed. Qed.
Print Assumptions C102_transposed.

Example C102_case :
  drawn true true 3 4 [mkring 0 1 2] = Ok [1;1;1;0; 0;1;0;0; 0;1;0;0] /\
  drawn true false 3 4 [mkring 0 1 2] = Ok [1;1;1;0; 0;1;0;0; 0;0;0;0] /\
  drawn true true 3 4 [mkring 3 (-3) 2; mkring 0 1 1] = Ok [1;1;1;0; 0;1;0;0; 0;1;0;0] /\
  drawn true true 3 4 [mkring 1 3 2] = Ok [0;0;0;1; 1;0;1;1; 0;0;0;1] /\
  drawn true true 4 3 [mkring 1 0 2] = Ok [1;0;0; 1;1;1; 1;0;0; 0;0;0] /\
  drawable true 3 4 /\ fits 3 4 (mkring 1 1 2) /\ ~ fits 3 4 (mkring 0 1 2) /\
  same_ring 3 4 (mkring 0 1 2) (mkring 3 (-3) 2) /\ larger (mkring 0 1 1) (mkring 0 1 2).
Proof.
  do 5 (split; [vm_compute; reflexivity|]). unfold drawable, fits, same_ring, larger. cbn [g_row g_col g_rad].
  do 3 (split; [lia|]). split; [|lia]. repeat split; reflexivity.
Qed.

(** ** C103: every circle is in one cluster; circles are in the same cluster exactly if a
    chain of circles that touch leads from one to the other.  So there are no more clusters
    than circles. *)
Theorem C103_clusters_of_circles : forall asrt per n m l, 0 < n -> 0 < m -> n * m < big ->
  exists img lab, drawn asrt per n m l = Ok img /\ clusters asrt [n; m] img per = Ok lab /\
    (forall p, pixel [n; m] p -> (zn lab p <> 0 <-> exists c, In c l /\ covers per n m c p)) /\
    (forall c c' p q, In c l -> In c' l -> pixel [n; m] p -> pixel [n; m] q -> covers per n m c p -> covers per n m c' q ->
       (zn lab p = zn lab q <-> chain per n m l c c')) /\
    Z.of_nat (nclusters lab) <= lenZ l.
Proof. exact clusters_of_circles. Qed.
Print Assumptions C103_clusters_of_circles.

Example C103_case : exists img lab,
  drawn true false 3 5 [mkring 0 0 2; mkring (-1) 4 3] = Ok img /\ clusters true [3; 5] img false = Ok lab /\
  lab = [1;1;0;2;2; 1;0;0;0;2; 0;0;0;0;0] /\ nclusters lab = 2%nat /\
  drawn true true 3 5 [mkring 0 0 2; mkring (-1) 4 3] = Ok [1;1;0;1;1; 1;0;0;1;1; 1;1;1;1;1].
Proof.
  eexists. eexists. split; [vm_compute; reflexivity|]. split; [vm_compute; reflexivity|]. split; [reflexivity|].
  split; [vm_compute; reflexivity|]. vm_compute. reflexivity.
Qed.
