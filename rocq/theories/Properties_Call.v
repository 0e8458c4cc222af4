(** * Properties_Call: C107 (named arguments in Python), C108 (named arguments of the statistics)

    [given l pos kw]: a call with positional arguments [pos] and named arguments [kw] gives the arguments [l], the first ones by
    position, the others by name, in any order (SpecCall). *)

From Coq Require Import ZArith QArith Qcanon List Bool String.
From Verif Require Import Base Path Ensemble EnsemblePy BindingsPy BindingsGeom BindingsCall SpecCall EnsembleCall
  DerivedCall DerivedEnsembleCall EnsembleCallCase.
Import ListNotations.
Local Open Scope string_scope.

(** ** C107 *)

Theorem C107_path : forall asrt fuel pos kw a b m,
  (given [("xa", PArray a); ("xb", PArray b)] pos kw ->
   py_function asrt fuel "path" pos kw = (x <- py_path fuel a b None ;; Ok (RIndices x))) /\
  (given [("xa", PArray a); ("xb", PArray b); ("mode", PMode m)] pos kw ->
   py_function asrt fuel "path" pos kw = (x <- py_path fuel a b (Some m) ;; Ok (RIndices x))).
Proof. exact call_path. Qed.
Print Assumptions C107_path.

Theorem C107_dummy_circles : forall asrt fuel pos kw s x y r p,
  (given [("shape", PShape s); ("row", PArray x); ("col", PArray y); ("r", PArray r)] pos kw ->
   py_function asrt fuel "dummy_circles" pos kw = (o <- py_dummy_circles asrt s x y r None ;; Ok (RImage o))) /\
  (given [("shape", PShape s); ("row", PArray x); ("col", PArray y); ("r", PArray r); ("periodic", PFlag p)] pos kw ->
   py_function asrt fuel "dummy_circles" pos kw = (o <- py_dummy_circles asrt s x y r (Some p) ;; Ok (RImage o))).
Proof. exact call_circles. Qed.
Print Assumptions C107_dummy_circles.

Theorem C107_clusters : forall asrt fuel pos kw f p,
  (given [("f", PArray f)] pos kw ->
   py_function asrt fuel "clusters" pos kw = (o <- py_clusters asrt f true ;; Ok (RImage o))) /\
  (given [("f", PArray f); ("periodic", PFlag p)] pos kw ->
   py_function asrt fuel "clusters" pos kw = (o <- py_clusters asrt f p ;; Ok (RImage o))).
Proof. exact call_clusters. Qed.
Print Assumptions C107_clusters.

Theorem C107_labels : forall asrt fuel pos kw l x,
  (given [("a", PArray l); ("b", PArray x)] pos kw ->
   py_function asrt fuel "labels_map" pos kw = (o <- py_labels_map l x ;; Ok (RMap o))) /\
  (given [("labels", PArray l); ("rename", PArray x)] pos kw ->
   py_function asrt fuel "labels_rename" pos kw = (o <- py_labels_rename asrt l x ;; Ok (RImage o))) /\
  (given [("labels", PArray l)] pos kw ->
   py_function asrt fuel "labels_prune" pos kw = (o <- py_labels_prune asrt l ;; Ok (RImage o))) /\
  (given [("labels", PArray l); ("order", PArray x)] pos kw ->
   py_function asrt fuel "labels_reorder" pos kw = (o <- py_labels_reorder asrt l x ;; Ok (RImage o))) /\
  (given [("labels", PArray l)] pos kw ->
   py_function asrt fuel "labels_sizes" pos kw = (o <- py_labels_sizes l ;; Ok (RMap o))) /\
  (given [("labels", PArray l); ("names", PArray x)] pos kw ->
   py_function asrt fuel "labels_sizes" pos kw = (o <- py_labels_sizes_names l x ;; Ok (RImage o))).
Proof. exact call_labels. Qed.
Print Assumptions C107_labels.

Theorem C107_center : forall asrt fuel pos kw s x p,
  (given [("shape", PArray s); ("positions", PArray x)] pos kw ->
   py_function asrt fuel "center" pos kw = (o <- py_center s x None ;; Ok (RCenter o))) /\
  (given [("shape", PArray s); ("positions", PArray x); ("periodic", PFlag p)] pos kw ->
   py_function asrt fuel "center" pos kw = (o <- py_center s x (Some p) ;; Ok (RCenter o))).
Proof. exact call_center. Qed.
Print Assumptions C107_center.

Theorem C107_center_of_mass : forall asrt fuel pos kw s x w p,
  (given [("shape", PArray s); ("positions", PArray x); ("weights", PArray w)] pos kw ->
   py_function asrt fuel "center_of_mass" pos kw = (o <- py_center_of_mass s x w None ;; Ok (RCenter o))) /\
  (given [("shape", PArray s); ("positions", PArray x); ("weights", PArray w); ("periodic", PFlag p)] pos kw ->
   py_function asrt fuel "center_of_mass" pos kw = (o <- py_center_of_mass s x w (Some p) ;; Ok (RCenter o))).
Proof. exact call_mass. Qed.
Print Assumptions C107_center_of_mass.

Theorem C107_labels_centers : forall asrt fuel pos kw l n p,
  (given [("labels", PArray l); ("names", PArray n)] pos kw ->
   py_function asrt fuel "labels_centers" pos kw = (o <- py_labels_centers asrt l n None ;; Ok (RCenters o))) /\
  (given [("labels", PArray l); ("names", PArray n); ("periodic", PFlag p)] pos kw ->
   py_function asrt fuel "labels_centers" pos kw = (o <- py_labels_centers asrt l n (Some p) ;; Ok (RCenters o))).
Proof. exact call_labels_centers. Qed.
Print Assumptions C107_labels_centers.

Theorem C107_labels_centers_of_mass : forall asrt fuel pos kw l w n p,
  (given [("labels", PArray l); ("weights", PArray w); ("names", PArray n)] pos kw ->
   py_function asrt fuel "labels_centers_of_mass" pos kw = (o <- py_labels_centers_of_mass asrt l w n None ;; Ok (RCenters o))) /\
  (given [("labels", PArray l); ("weights", PArray w); ("names", PArray n); ("periodic", PFlag p)] pos kw ->
   py_function asrt fuel "labels_centers_of_mass" pos kw = (o <- py_labels_centers_of_mass asrt l w n (Some p) ;; Ok (RCenters o))).
Proof. exact call_labels_mass. Qed.
Print Assumptions C107_labels_centers_of_mass.

(** Arguments that are missing, too many, given twice or of unknown name raise. *)
Theorem C107_other_calls_raise : forall asrt fuel pos kw f, NoDup (map fst kw) ->
  (forall l, documented f (map fst l) -> ~ given l pos kw) -> py_function asrt fuel f pos kw = Throw.
Proof. exact call_other. Qed.
Print Assumptions C107_other_calls_raise.

Example C107_case : forall a b c, given [("labels", PArray a); ("weights", PArray b); ("names", PArray c); ("periodic", PFlag false)]
  [PArray a] [("periodic", PFlag false); ("names", PArray c); ("weights", PArray b)].
Proof. exact case_given. Qed.
Example C107_case_raises : forall a b, ~ exists l, documented "labels_centers" (map fst l) /\ given l [PArray a; PArray b] [("labels", PArray a)].
Proof. exact case_twice. Qed.

(** ** C108 *)

(** Methods of [Ensemble]. *)
Theorem C108_methods : forall asrt e m masks l md pos kw, List.length l = List.length (images m masks) ->
  (md <> None -> with_mode m) ->
  given (name_images m masks l ++ if_given "mode" PMode md) pos kw ->
  py_method asrt e m pos kw = py_add asrt e m l (match md with Some v => v | None => Bresenham end).
Proof. exact call_method. Qed.
Print Assumptions C108_methods.

(** Wrappers, options by name, ... *)
Theorem C108_wrappers_partial : forall asrt m masks roi l per md pos kw, m <> M_mean -> List.length l = List.length (images m masks) ->
  forallb (fun n => (0 <=? n)%Z) roi = true -> (md <> None -> with_mode m) ->
  (masks = true -> m = M_W2 \/ m = M_heightheight -> forall a, In a l -> List.length (a_vals a) <> 1%nat) ->
  given_with (("roi", PShape roi) :: name_images m masks l) (if_given "periodic" PFlag per ++ if_given "mode" PMode md) pos kw ->
  py_wrapper asrt m pos kw = py_single asrt roi (match per with Some b => b | None => true end) m l (match md with Some v => v | None => Bresenham end).
Proof. exact call_wrapper. Qed.
Print Assumptions C108_wrappers_partial.

(** ... or by position in the order of the parameters. *)
Theorem C108_wrappers_in_order_partial : forall asrt m masks roi l per md pos kw, m <> M_mean -> List.length l = List.length (images m masks) ->
  forallb (fun n => (0 <=? n)%Z) roi = true -> in_order m per md ->
  (masks = true -> m = M_W2 \/ m = M_heightheight -> forall a, In a l -> List.length (a_vals a) <> 1%nat) ->
  given (("roi", PShape roi) :: name_images m masks l ++ options m per md) pos kw ->
  py_wrapper asrt m pos kw = py_single asrt roi (match per with Some b => b | None => true end) m l (match md with Some v => v | None => Bresenham end).
Proof. exact call_wrapper_order. Qed.
Print Assumptions C108_wrappers_in_order_partial.

(** Missing: a mask of one pixel may be taken for [periodic]. *)
Theorem C108_mask_refuted : exists roi w f fmask, forall asrt,
  py_wrapper asrt M_W2 [PShape roi; PArray w; PArray f; PArray fmask] [] <> py_single asrt roi true M_W2 [w; f; fmask] Bresenham /\
  py_wrapper asrt M_W2 [PShape roi; PArray w; PArray f; PArray fmask] [] = py_single asrt roi true M_W2 [w; f] Bresenham.
Proof. exact mask_taken. Qed.
Print Assumptions C108_mask_refuted.

(** [W2c(roi, clusters, centers, f, False)], as for the other statistics: the flag is taken for
    the mask. *)
Theorem C108_flag_refuted : exists roi clusters centers f, forall asrt,
  (exists v, py_single asrt roi false M_W2c [clusters; centers; f] Bresenham = Ok v) /\
  py_wrapper asrt M_W2c [PShape roi; PArray clusters; PArray centers; PArray f; PFlag false] [] = (if asrt then Throw else UB).
Proof. exact flag_taken. Qed.
Print Assumptions C108_flag_refuted.

Example C108_case : forall c ce f, given_with (("roi", PShape [3%Z]) :: name_images M_W2c false [c; ce; f])
  (if_given "periodic" PFlag (Some false) ++ if_given "mode" PMode (Some actual)) [PShape [3%Z]; PArray c]
  [("mode", PMode actual); ("f", PArray f); ("periodic", PFlag false); ("centers", PArray ce)].
Proof. exact case_given_with. Qed.
