(** * Layout: the functions that read an array through [flat(i)], for every layout in memory

    The rest of the model takes an image as the row-major list of its elements.  Some of the
    code does not read elements by their coordinates: [a.flat(i)] is the [i]-th element of the
    storage, counted from the data pointer, whatever the strides of [a] are.  For the
    containers of the Python module ([xt::pyarray<T>] and [xt::pytensor<T, N>] of
    main.cpp:52-191, whose layout is dynamic) the storage is the memory of the NumPy array as
    it was passed: a transposed array, an array in Fortran order, every second column of an
    array.  The same holds in C++ for an [xt::xarray] in column-major order.

    Functions that are not here ([dilate], [center], [labels_centers], [Ensemble], the
    kernel of a labeller, which is read at [strides]) reach elements by their coordinates or
    by iterators in row-major order: for those the row-major list is the array. *)

From Coq Require Import ZArith List Bool.
From Verif Require Import Base Cluster Labels.
Import ListNotations.
Open Scope Z_scope.

(** An array in memory: the shape, the strides (in elements) and a block of memory of which
    the element with coordinates zero is at [m_base] (the data pointer).  A NumPy view shares
    the block of the array it was taken from. *)
Record marr := mkmarr {
  m_shape : list Z;
  m_strides : list Z;
  m_block : list Z;
  m_base : Z
}.

(** [a.size()]. *)
Definition msize (a : marr) : Z := zprod (m_shape a).

(** [a(i, j, ...)] and what an iterator gives: the element at the given coordinates. *)
Definition element (a : marr) (ix : list Z) : res Z :=
  vget (m_block a) (m_base a + dot ix (m_strides a)).

(** [a.begin()] to [a.end()]: the elements in row-major order of their coordinates. *)
Definition elements (a : marr) : res (list Z) :=
  mapM (fun p => element a (unravel (m_shape a) p)) (zrange 0 (msize a)).

(** [a.flat(i)]: the [i]-th element of the storage. *)
Definition flat (a : marr) (i : Z) : res Z := vget (m_block a) (m_base a + i).

(** [a.flat(i)] for [i = 0, ..., n - 1]. *)
Definition flats (a : marr) (n : Z) : res (list Z) := mapM (flat a) (zrange 0 n).

(** Strides of an array in column-major (Fortran) order: [acc] is the number of elements of
    the axes before. *)
Fixpoint fstrides (acc : Z) (shape : list Z) : list Z :=
  match shape with
  | [] => []
  | n :: t => acc :: fstrides (acc * n) t
  end.

(** Strides of an array in row-major order. *)
Fixpoint cstrides (shape : list Z) : list Z :=
  match shape with
  | [] => []
  | _ :: t => zprod t :: cstrides t
  end.

(** Strides that agree on all axes longer than one. *)
Fixpoint agree (shape s t : list Z) : bool :=
  match shape, s, t with
  | [], [], [] => true
  | n :: shape', a :: s', b :: t' => ((n =? 1) || (a =? b)) && agree shape' s' t'
  | _, _, _ => false
  end.

(** [a.layout() == xt::layout_type::row_major]: for a NumPy array the flag [C_CONTIGUOUS],
    which ignores the strides of axes of length one and is set for an empty array. *)
Definition row_major (a : marr) : bool :=
  (msize a =? 0) || agree (m_shape a) (m_strides a) (cstrides (m_shape a)).

(** [xt::empty_like(labels)], then filled with [ret.flat(i) = vals[i]]: from a container of
    dynamic layout a new array in row-major order ([fort = false]); from a container that is
    column-major by its type (C++) a new array in column-major order ([fort = true]). *)
Definition like (fort : bool) (a : marr) (vals : list Z) : marr :=
  mkmarr (m_shape a) (if fort then fstrides 1 (m_shape a) else cstrides (m_shape a)) vals 0.

(** [clusters] (GooseEYE.h:1197-1222): the layout is asserted, the number of dimensions
    checked, [ClusterLabellerOverload] (:1160-1192) reads the image by [add_image]. *)
Definition clusters_in (asrt : bool) (a : marr) (per : bool) : res (list Z) :=
  _ <- assertb asrt (row_major a) ;;
  _ <- make_default (m_shape a) per ;;
  v <- flats a (msize a) ;;
  clusters asrt (m_shape a) v per.

(** [ClusterLabeller::add_image] (GooseEYE.h:1026-1040); no assertion on the layout. *)
Definition add_image_in (asrt : bool) (g : cfg) (s : st) (a : marr) : res st :=
  _ <- assertb asrt (eqbl (m_shape a) (g_shape g)) ;;
  v <- flats a (msize a) ;;
  add_image asrt g s (m_shape a) v.

(** [labels_map] (GooseEYE.h:427-448). *)
Definition labels_map_in (a b : marr) : res zmap :=
  x <- flats a (msize a) ;;
  y <- flats b (msize a) ;;
  labels_map x y.

(** [labels_rename] (GooseEYE.h:456-480): the assertion is on [xt::unique(labels)], which
    iterates in row-major order; the labels are read by [flat]. *)
Definition labels_rename_in (asrt fort : bool) (a : marr) (nr nc : Z) (data : list Z)
  : res marr :=
  _ <- assertb asrt (nc =? 2) ;;
  m <- rename_table nr nc data ;;
  _ <- (if asrt then
          l <- elements a ;;
          foldM (fun _ l => assertb true (match mfind m l with Some _ => true | None => false end))
                (unique l) tt
        else Ok tt) ;;
  v <- flats a (msize a) ;;
  r <- foldM (fun acc l => let (m, ret) := (acc : zmap * list Z) in
                           let (m', v) := mindex m l in Ok (m', ret ++ [v]))
             v (m, []) ;;
  Ok (like fort a (snd r)).

(** [labels_prune] (GooseEYE.h:489-527). *)
Definition labels_prune_in (asrt fort : bool) (a : marr) : res marr :=
  l <- elements a ;;
  let unq := unique l in
  labels_rename_in asrt fort a (lenZ unq) 2 (flat_rows (prune_table unq)).

(** [labels_reorder] (GooseEYE.h:536-558). *)
Definition labels_reorder_in (asrt fort : bool) (a : marr) (order : list Z) : res marr :=
  _ <- (if asrt then
          l <- elements a ;;
          _ <- assertb true (lenZ (unique l) =? lenZ (unique order)) ;;
          assertb true (eqbl (unique l) (unique order))
        else Ok tt) ;;
  maxlab <- max_element order ;;
  renum0 <- (if maxlab + 1 <? 0 then Throw else Ok (repeat 0 (Z.to_nat (maxlab + 1)))) ;;
  renum <- foldM (fun r i => o <- vget order i ;; vset r o i) (zseq 0 (length order)) renum0 ;;
  v <- flats a (msize a) ;;
  r <- mapM (fun l => vget renum l) v ;;
  Ok (like fort a r).

(** [labels_sizes(labels)] (GooseEYE.h:562-603). *)
Definition labels_sizes_in (a : marr) : res zmap :=
  v <- flats a (msize a) ;;
  Ok (labels_sizes v).

(** [labels_sizes(labels, names)] (GooseEYE.h:611-621). *)
Definition labels_sizes_names_in (a : marr) (names : list Z) : res (list Z) :=
  v <- flats a (msize a) ;;
  Ok (labels_sizes_names v names).
