(** * Collapse: labels to centers, the documented use of [W2c]

    The lines of docs/examples/W2c.py:32-48 that lie between [clusters] and [W2c].  Real
    arithmetic, as in Center.v; the axes may be any number (the example has two). *)

From Coq Require Import ZArith List Bool Reals.
From Flocq Require Import Core.
From Verif Require Import Base Cluster Center.
Import ListNotations.
Open Scope Z_scope.

(** [names = np.unique(labels)[1:]] (docs/examples/W2c.py:34); [np.unique] sorts and removes
    duplicates, as the C++ function [unique] of Cluster.v. *)
Definition names_of (labels : list Z) : list Z := tl (unique labels).

(** [np.rint(cpos).astype(int)] (docs/examples/W2c.py:36), one number: to the nearest integer,
    halfway to the even one.  What NaN is converted to is not defined. *)
Definition rint (x : num) : res Z :=
  match x with
  | Num c => Ok (ZnearestE c)
  | _ => UB
  end.

(** [np.clip(cpos[:, k], 0, labels.shape[k] - 1)] (docs/examples/W2c.py:37-38), one number. *)
Definition clip (n z : Z) : Z := Z.min (Z.max z 0) (n - 1).

Fixpoint clip_all (shape x : list Z) : list Z :=
  match shape, x with
  | n :: shape', z :: x' => clip n z :: clip_all shape' x'
  | _, _ => []
  end.

(** [np.ravel_multi_index(cpos.T, labels.shape)] (docs/examples/W2c.py:39), one position: raises
    if it is outside. *)
Fixpoint within_shape (shape x : list Z) : bool :=
  match shape, x with
  | [], [] => true
  | n :: shape', z :: x' => (0 <=? z) && (z <? n) && within_shape shape' x'
  | _, _ => false
  end.

Definition ravel_multi_index (shape x : list Z) : res Z :=
  if within_shape shape x then Ok (dot x (strides shape)) else Throw.

(** docs/examples/W2c.py:36-39, one row of [cpos]. *)
Definition index_of (shape : list Z) (row : list num) : res Z :=
  x <- mapM rint row ;; ravel_multi_index shape (clip_all shape x).

(** [centers.flat[index] = names] (docs/examples/W2c.py:41): one after the other. *)
Definition assign (centers index names : list Z) : res (list Z) :=
  foldM (fun c iv => vset c (fst iv) (snd iv)) (combine index names) centers.

(** docs/examples/W2c.py:34-41.  The example leaves [periodic] at its default, true
    (python/main.cpp:212). *)
Definition collapse (asrt : bool) (shape labels : list Z) (periodic : bool) : res (list Z) :=
  let names := names_of labels in
  cpos <- labels_centers asrt shape labels names periodic ;;
  index <- mapM (index_of shape) cpos ;;
  assign (repeat 0 (length labels)) index names.
