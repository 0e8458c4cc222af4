(** * Properties_Geom: C98

    The Python bindings of path, dummy_circles and the centers.  Statements only. *)

From Coq Require Import ZArith QArith Qcanon Qreals Reals List Bool.
From Verif Require Import Base Path Circles Center Ensemble EnsemblePy SpecPy BindingsPy SpecBindings BindingsGeom SpecGeom DerivedGeom.
Import ListNotations.
Open Scope Z_scope.

(** ** C98 Positions and labels in Python are what is passed

    Lists of integers of any dtype reach C++ as they are; what is left out has the default of
    C++. *)
Theorem C98_path_as_passed_partial :
  forall fuel xa xb a b, vector (- 2 ^ 31) (2 ^ 31) xa a -> vector (- 2 ^ 31) (2 ^ 31) xb b ->
  (forall mode, py_path fuel xa xb (Some mode) = path fuel a b mode) /\ py_path fuel xa xb None = path fuel a b Bresenham.
Proof. exact path_passed. Qed.
Print Assumptions C98_path_as_passed_partial.

Theorem C98_circles_as_passed_partial :
  forall asrt shape row col r x y s,
  vector (- 2 ^ 31) (2 ^ 31) row x -> vector (- 2 ^ 31) (2 ^ 31) col y -> vector (- 2 ^ 31) (2 ^ 31) r s ->
  (forall per, py_dummy_circles asrt shape row col r (Some per) = dummy_circles asrt shape x y s per) /\
  py_dummy_circles asrt shape row col r None = dummy_circles asrt shape x y s true.
Proof. exact circles_passed. Qed.
Print Assumptions C98_circles_as_passed_partial.

Theorem C98_labels_as_passed_partial :
  forall asrt labels names l n, integers (- 2 ^ 63) (2 ^ 63) labels l -> vector (- 2 ^ 63) (2 ^ 63) names n ->
  (forall per, py_labels_centers asrt labels names (Some per) = labels_centers asrt (i_shape l) (i_vals l) n per) /\
  py_labels_centers asrt labels names None = labels_centers asrt (i_shape l) (i_vals l) n true /\
  forall weights w, map (fun q => Q2R (this q)) (a_vals weights) = w ->
    (forall per, py_labels_centers_of_mass asrt labels weights names (Some per) =
                 labels_centers_of_mass asrt (i_shape l) (i_vals l) (a_shape weights) w n per) /\
    py_labels_centers_of_mass asrt labels weights names None =
      labels_centers_of_mass asrt (i_shape l) (i_vals l) (a_shape weights) w n true.
Proof. exact labels_centers_passed. Qed.
Print Assumptions C98_labels_as_passed_partial.

(** Shapes, positions and weights may be any numbers. *)
Theorem C98_centers_as_passed :
  forall shape positions s p, holds_list shape s -> holds_rows positions p ->
  (forall per, py_center shape positions (Some per) = center s p per) /\ py_center shape positions None = center s p true /\
  forall weights w, holds_list weights w ->
    (forall per, py_center_of_mass shape positions weights (Some per) = center_of_mass s p w per) /\
    py_center_of_mass shape positions weights None = center_of_mass s p w true.
Proof. exact centers_passed. Qed.
Print Assumptions C98_centers_as_passed.

(** An array of the wrong rank is an exception. *)
Theorem C98_wrong_rank_raises :
  forall a,
  ((forall n, a_shape a <> [n]) -> forall b l, vector (- 2 ^ 31) (2 ^ 31) b l ->
     (forall fuel mode, py_path fuel a b mode = Throw /\ py_path fuel b a mode = Throw) /\
     (forall asrt shape per, py_dummy_circles asrt shape a b b per = Throw /\ py_dummy_circles asrt shape b a b per = Throw /\
                             py_dummy_circles asrt shape b b a per = Throw)) /\
  ((forall n, a_shape a <> [n]) -> forall labels i, integers (- 2 ^ 63) (2 ^ 63) labels i -> forall asrt weights per,
     py_labels_centers asrt labels a per = Throw /\ py_labels_centers_of_mass asrt labels weights a per = Throw) /\
  ((forall n, a_shape a <> [n]) -> forall b p per, py_center a b per = Throw /\ py_center_of_mass a b p per = Throw) /\
  ((forall n m, a_shape a <> [n; m]) -> forall b p per, py_center b a per = Throw /\ py_center_of_mass b a p per = Throw).
Proof. exact wrong_rank. Qed.
Print Assumptions C98_wrong_rank_raises.

(** Fractions are rounded towards zero, without an exception: a path that is to start at a point
    closer to pixel 1 starts at pixel 0. *)
Theorem C98_path_refuted :
  exists xa xb out, (exists q, a_vals xa = [q] /\ (zq 0 + Q2Qc (1 # 2) < q)%Qc) /\
  py_path 100 xa xb None = Ok out /\ hd [] out = [0].
Proof. exact path_refuted. Qed.
Print Assumptions C98_path_refuted.

(** A label that no pixel has is given the center of the pixels with another. *)
Theorem C98_labels_refuted :
  exists labels names p, (forall q, In q (a_vals labels) -> q <> zq 1) /\ a_vals names = [zq 1] /\
  py_labels_centers true labels names (Some false) = Ok [[Num p]] /\ p <> 0%R.
Proof. exact label_refuted. Qed.
Print Assumptions C98_labels_refuted.

Example C98_case :
  vector (- 2 ^ 31) (2 ^ 31) (mkarray Float64 [2] (map zq [3; -1])) [3; -1] /\
  vector (- 2 ^ 63) (2 ^ 63) (mkarray Int32 [2] (map zq [1; 2])) [1; 2] /\
  holds_list (mkarray Int64 [2] (map zq [4; 6])) (map (fun z => Q2R (this (zq z))) [4; 6]) /\
  holds_rows (mkarray Int64 [2; 3] (map zq [1; 2; 3; 4; 5; 6]))
    (map (map (fun z => Q2R (this (zq z)))) [[1; 2; 3]; [4; 5; 6]]) /\
  py_path 100 (mkarray Float64 [2] (map zq [0; 0])) (mkarray Int64 [2] (map zq [3; -1])) None
    = Ok [[0; 0]; [1; 0]; [2; -1]; [3; -1]].
Proof.
  split; [|split; [|split; [|split]]].
  - split; [eexists; reflexivity|]. split; [reflexivity|]. do 2 (constructor; [split; vm_compute; congruence|]). constructor.
  - split; [eexists; reflexivity|]. split; [reflexivity|]. do 2 (constructor; [split; vm_compute; congruence|]). constructor.
  - split; [eexists; reflexivity|reflexivity].
  - exists 2, 3. split; [reflexivity|]. split; [discriminate|]. split; [reflexivity|]. split; [repeat constructor|reflexivity].
  - vm_compute. reflexivity.
Qed.
