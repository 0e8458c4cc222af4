(** * CollapseFloat: docs/examples/W2c.py:32-48 once more, now with [double] as IEEE 754 numbers

    Collapse.v models the same lines with real numbers.  Names carry an [f]. *)

From Coq Require Import ZArith List Bool.
From Flocq Require Import Core BinarySingleNaN.
From Verif Require Import Base Cluster Double CenterFloat Collapse.
Import ListNotations.
Open Scope Z_scope.

(** [np.rint(cpos).astype(int)] (docs/examples/W2c.py:36), one number: to the nearest integer,
    halfway to the even one (which is exact), then to 64 bits.  What other numbers, infinities and
    NaN are converted to is not defined. *)
Definition frint (x : double) : res Z :=
  if is_finite x && (- 2 ^ 63 <=? ZnearestE (B2R x)) && (ZnearestE (B2R x) <? 2 ^ 63) then Ok (ZnearestE (B2R x)) else UB.

(** docs/examples/W2c.py:36-39, one row of [cpos]. *)
Definition findex_of (shape : list Z) (row : list double) : res Z :=
  x <- mapM frint row ;; ravel_multi_index shape (clip_all shape x).

(** docs/examples/W2c.py:34-41. *)
Definition fcollapse (T : trig) (asrt : bool) (shape labels : list Z) (periodic : bool) : res (list Z) :=
  let names := names_of labels in
  cpos <- flabels_centers T asrt shape labels names periodic ;;
  index <- mapM (findex_of shape) cpos ;;
  assign (repeat 0 (length labels)) index names.
