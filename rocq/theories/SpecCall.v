(** * SpecCall: Python calls with positional and named arguments *)

From Coq Require Import List String Permutation.
From Verif Require Import Path EnsemblePy BindingsCall.
Import ListNotations.

(** The arguments [l], each with the name of its parameter, are given: the first ones by
    position, the others by name and in any order. *)
Definition given (l : list (string * parg)) (pos : list parg) (kw : list (string * parg)) : Prop :=
  exists n, pos = map snd (firstn n l) /\ Permutation kw (skipn n l).

(** The same, followed by arguments [o] that are given by name. *)
Definition given_with (l o : list (string * parg)) (pos : list parg) (kw : list (string * parg)) : Prop :=
  exists n, (n <= List.length l)%nat /\ pos = map snd (firstn n l) /\ Permutation kw (skipn n l ++ o).

Local Open Scope string_scope.

(** The names of the arguments with which a function may be called. *)
Definition documented (f : string) (names : list string) : Prop :=
  In (f, names)
    [ ("path", ["xa"; "xb"]); ("path", ["xa"; "xb"; "mode"]);
      ("dummy_circles", ["shape"; "row"; "col"; "r"]); ("dummy_circles", ["shape"; "row"; "col"; "r"; "periodic"]);
      ("clusters", ["f"]); ("clusters", ["f"; "periodic"]);
      ("labels_map", ["a"; "b"]); ("labels_rename", ["labels"; "rename"]); ("labels_prune", ["labels"]);
      ("labels_reorder", ["labels"; "order"]); ("labels_sizes", ["labels"]); ("labels_sizes", ["labels"; "names"]);
      ("center", ["shape"; "positions"]); ("center", ["shape"; "positions"; "periodic"]);
      ("center_of_mass", ["shape"; "positions"; "weights"]); ("center_of_mass", ["shape"; "positions"; "weights"; "periodic"]);
      ("labels_centers", ["labels"; "names"]); ("labels_centers", ["labels"; "names"; "periodic"]);
      ("labels_centers_of_mass", ["labels"; "weights"; "names"]);
      ("labels_centers_of_mass", ["labels"; "weights"; "names"; "periodic"]) ].

(** The names of the images of a statistic, without and with masks. *)
Definition images (m : method) (masks : bool) : list string :=
  match m, masks with
  | M_mean, false => ["f"]
  | M_mean, true => ["f"; "fmask"]
  | M_S2, false => ["f"; "g"]
  | M_S2, true => ["f"; "g"; "fmask"; "gmask"]
  | M_heightheight, false => ["f"]
  | M_heightheight, true => ["f"; "fmask"]
  | M_C2, false => ["f"; "g"]
  | M_C2, true => ["f"; "g"; "fmask"; "gmask"]
  | M_W2, false => ["w"; "f"]
  | M_W2, true => ["w"; "f"; "fmask"]
  | M_W2c, false => ["clusters"; "centers"; "f"]
  | M_W2c, true => ["clusters"; "centers"; "f"; "fmask"]
  | M_L, _ => ["f"]
  end.
Definition with_mode (m : method) : Prop := m = M_W2c \/ m = M_L.

(** The images with their names; arguments that may be left out. *)
Definition name_images (m : method) (masks : bool) (l : list array) : list (string * parg) :=
  combine (images m masks) (map PArray l).
Definition if_given {A} (n : string) (f : A -> parg) (x : option A) : list (string * parg) :=
  match x with Some v => [(n, f v)] | None => [] end.

(** The options of a wrapper in the order of its parameters; an option may be left out if those
    after it are. *)
Definition options (m : method) (per : option bool) (md : option path_mode) : list (string * parg) :=
  match m with
  | M_W2c => if_given "mode" PMode md ++ if_given "periodic" PFlag per
  | _ => if_given "periodic" PFlag per ++ if_given "mode" PMode md
  end.
Definition in_order (m : method) (per : option bool) (md : option path_mode) : Prop :=
  match m with
  | M_W2c => per <> None -> md <> None
  | M_L => md <> None -> per <> None
  | _ => md = None
  end.
