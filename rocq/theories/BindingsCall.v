(** * BindingsCall: names of the arguments in the Python bindings (python/main.cpp:86-223)

    Calls with positional and named arguments of the functions whose overloads differ in the
    names or the number of their parameters (for [dilate] see BindingsPy.v).  What is done with
    the arguments: BindingsPy.v, BindingsGeom.v.  Arguments of another kind than the documented one
    (for example a number or a flag where an array is needed, which may load as an array of rank
    zero) are not modelled: the model raises, and nothing is claimed of such calls.  Not
    modelled: [dummy_circles(shape, periodic, seed)] (main.cpp:94-99), with which a call of
    [dummy_circles] with three or fewer arguments can be confused. *)

From Coq Require Import ZArith List Bool String.
From Verif Require Import Base Path Center Cluster Labels Ensemble EnsemblePy BindingsPy BindingsGeom.
Import ListNotations.
Local Open Scope string_scope.

(** Arguments: arrays, numbers, booleans, modes of [path], shapes (a list of integers). *)
Inductive parg := PArray (a : array) | PNum (n : Z) | PFlag (b : bool) | PMode (m : path_mode) | PShape (l : list Z).

(** Name and default of each parameter. *)
Definition signature := list (string * option parg).

Definition by_name (n : string) (kw : list (string * parg)) : option parg :=
  match find (fun k => String.eqb (fst k) n) kw with Some k => Some (snd k) | None => None end.

(** pybind11's matching of arguments with parameters, as [match_args] (BindingsPy.v). *)
Fixpoint receive (s : signature) (pos : list parg) (kw : list (string * parg)) : option (list parg) :=
  match s, pos with
  | [], [] => match kw with [] => Some [] | _ => None end
  | [], _ :: _ => None
  | p :: s', x :: pos' => option_map (cons x) (receive s' pos' kw)
  | p :: s', [] =>
      match match by_name (fst p) kw with Some x => Some x | None => snd p end with
      | Some x => option_map (cons x) (receive s' [] (filter (fun k => negb (String.eqb (fst k) (fst p))) kw))
      | None => None
      end
  end.

(** What the functions return. *)
Inductive pyresult := RIndices (l : list (list Z)) | RImage (l : list Z) | RMap (m : zmap) | RCenter (l : list num) | RCenters (l : list (list num)).

Definition as_result {A} (f : A -> pyresult) (x : res A) : res pyresult := a <- x ;; Ok (f a).

(** The overloads, each with its parameters, by the name of the function.  [fuel]: see
    [path]. *)
Definition function_overloads (asrt : bool) (fuel : nat) (f : string) : list (signature * (list parg -> res pyresult)) :=
  if String.eqb f "path" then (* main.cpp:86-92 *)
    [ ([("xa", None); ("xb", None); ("mode", Some (PMode Bresenham))],
       fun l => match l with
                | [PArray a; PArray b; PMode m] => as_result RIndices (py_path fuel a b (Some m))
                | _ => Throw end) ]
  else if String.eqb f "dummy_circles" then (* 101-113 *)
    [ ([("shape", None); ("row", None); ("col", None); ("r", None); ("periodic", Some (PFlag true))],
       fun l => match l with
                | [PShape s; PArray x; PArray y; PArray r; PFlag p] => as_result RImage (py_dummy_circles asrt s x y r (Some p))
                | _ => Throw end) ]
  else if String.eqb f "clusters" then (* 157-161 *)
    [ ([("f", None); ("periodic", Some (PFlag true))],
       fun l => match l with
                | [PArray a; PFlag p] => as_result RImage (py_clusters asrt a p)
                | _ => Throw end) ]
  else if String.eqb f "labels_map" then (* 163 *)
    [ ([("a", None); ("b", None)],
       fun l => match l with
                | [PArray a; PArray b] => as_result RMap (py_labels_map a b)
                | _ => Throw end) ]
  else if String.eqb f "labels_rename" then (* 165-169 *)
    [ ([("labels", None); ("rename", None)],
       fun l => match l with
                | [PArray a; PArray b] => as_result RImage (py_labels_rename asrt a b)
                | _ => Throw end) ]
  else if String.eqb f "labels_prune" then (* 171 *)
    [ ([("labels", None)],
       fun l => match l with
                | [PArray a] => as_result RImage (py_labels_prune asrt a)
                | _ => Throw end) ]
  else if String.eqb f "labels_reorder" then (* 173-177 *)
    [ ([("labels", None); ("order", None)],
       fun l => match l with
                | [PArray a; PArray b] => as_result RImage (py_labels_reorder asrt a b)
                | _ => Throw end) ]
  else if String.eqb f "labels_sizes" then (* 179-190 *)
    [ ([("labels", None)],
       fun l => match l with
                | [PArray a] => as_result RMap (py_labels_sizes a)
                | _ => Throw end);
      ([("labels", None); ("names", None)],
       fun l => match l with
                | [PArray a; PArray b] => as_result RImage (py_labels_sizes_names a b)
                | _ => Throw end) ]
  else if String.eqb f "center" then (* 192-197 *)
    [ ([("shape", None); ("positions", None); ("periodic", Some (PFlag true))],
       fun l => match l with
                | [PArray s; PArray x; PFlag p] => as_result RCenter (py_center s x (Some p))
                | _ => Throw end) ]
  else if String.eqb f "center_of_mass" then (* 199-205 *)
    [ ([("shape", None); ("positions", None); ("weights", None); ("periodic", Some (PFlag true))],
       fun l => match l with
                | [PArray s; PArray x; PArray w; PFlag p] => as_result RCenter (py_center_of_mass s x w (Some p))
                | _ => Throw end) ]
  else if String.eqb f "labels_centers" then (* 207-212 *)
    [ ([("labels", None); ("names", None); ("periodic", Some (PFlag true))],
       fun l => match l with
                | [PArray a; PArray n; PFlag p] => as_result RCenters (py_labels_centers asrt a n (Some p))
                | _ => Throw end) ]
  else if String.eqb f "labels_centers_of_mass" then (* 214-223 *)
    [ ([("labels", None); ("weights", None); ("names", None); ("periodic", Some (PFlag true))],
       fun l => match l with
                | [PArray a; PArray w; PArray n; PFlag p] => as_result RCenters (py_labels_centers_of_mass asrt a w n (Some p))
                | _ => Throw end) ]
  else [].

(** The first overload that fits ([TypeError] if there is none). *)
Fixpoint call_first (os : list (signature * (list parg -> res pyresult))) (pos : list parg) (kw : list (string * parg)) : res pyresult :=
  match os with
  | [] => Throw
  | o :: os' => match receive (fst o) pos kw with Some l => snd o l | None => call_first os' pos kw end
  end.

Definition py_function (asrt : bool) (fuel : nat) (f : string) (pos : list parg) (kw : list (string * parg)) : res pyresult :=
  call_first (function_overloads asrt fuel f) pos kw.
