(** * Alias: the array of labels that Python gets from a labeller

    [cls.labels] (main.cpp:48) is [ClusterLabeller::labels] (GooseEYE.h:1162-1168), which
    returns a reference to [m_label].  In the Python module [m_label] is an [xt::pytensor]
    (config.h:135-142), that is a handle of a NumPy array; pybind11 passes that array itself
    on to Python.  The methods write to [m_label] in place ([flat(i) = ...], [std::fill]:
    GooseEYE.h:778, 820, 996-1015) and nothing replaces it after construction (:748).

    Here: a program of a user who calls methods of a labeller, reads its labels, copies them
    and writes to what was read.  NumPy arrays are in a heap; the one at address 0 is
    [m_label]. *)

From Coq Require Import ZArith List Bool.
From Verif Require Import Base Cluster.
Import ListNotations.
Open Scope Z_scope.

(** Statements of the program. *)
Inductive pyop :=
| PCall (o : op)                         (* cls.add_image(...), cls.prune(), ... *)
| PRead                                  (* x = cls.labels *)
| PCopy                                  (* x = cls.labels.copy() *)
| PWrite (v : nat) (i x : Z).            (* v.flat[i] = x, for the v-th variable bound *)

(** The members of the labeller other than [m_label] ([c_label] of [py_st] is not used), the
    NumPy arrays, and the address of each variable. *)
Record py := mkpy { py_st : st; py_heap : list (list Z); py_vars : list nat }.

Definition with_label (s : st) (l : list Z) : st := mkst l (c_new s) (c_nmerge s) (c_renum s) (c_next s).

(** The array at an address. *)
Definition deref (p : py) (a : nat) : res (list Z) :=
  match nth_error (py_heap p) a with Some l => Ok l | None => UB end.

(** The labeller as its methods see it. *)
Definition labeller (p : py) : res st := l <- deref p 0 ;; Ok (with_label (py_st p) l).

(** One statement. An unknown variable or an index outside the array is an exception of
    Python. *)
Definition pystep (asrt : bool) (g : cfg) (p : py) (o : pyop) : res py :=
  match o with
  | PCall o =>
      s <- labeller p ;;
      r <- step asrt g s o ;;
      Ok (mkpy (fst r) (upd 0 (c_label (fst r)) (py_heap p)) (py_vars p))
  | PRead => Ok (mkpy (py_st p) (py_heap p) (py_vars p ++ [0%nat]))
  | PCopy =>
      l <- deref p 0 ;;
      Ok (mkpy (py_st p) (py_heap p ++ [l]) (py_vars p ++ [length (py_heap p)]))
  | PWrite v i x =>
      match nth_error (py_vars p) v with
      | None => Throw
      | Some a =>
          l <- deref p a ;;
          if (i <? 0) || (lenZ l <=? i) then Throw
          else Ok (mkpy (py_st p) (upd a (upd (Z.to_nat i) x l) (py_heap p)) (py_vars p))
      end
  end.

(** A new labeller (GooseEYE.h:711-780). *)
Definition pyinit (g : cfg) : py := mkpy (init g) [c_label (init g)] [].

Definition pyrun (asrt : bool) (g : cfg) (prog : list pyop) : res py :=
  foldM (pystep asrt g) prog (pyinit g).

(** What a variable holds. *)
Definition variable (p : py) (v : nat) : option (list Z) :=
  match nth_error (py_vars p) v with Some a => nth_error (py_heap p) a | None => None end.
