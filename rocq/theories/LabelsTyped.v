(** * LabelsTyped: the label utilities for every integral [value_type] (GooseEYE.h:420-621)

    Labels.v has unbounded integers.  Here the arrays have the value types that a user of the
    C++ templates chooses; conversions and arithmetic are those of C++ on a machine where [int]
    has 32 bits.  Conversion to a signed type is modular (C++20; gcc and clang before that).
    Simplification: floating-point value types are not modelled. *)

From Coq Require Import ZArith List Bool.
From Verif Require Import Base Cluster Labels.
Import ListNotations.
Open Scope Z_scope.

(** The integral types [int8_t], ..., [uint64_t]. *)
Inductive ity := I8 | I16 | I32 | I64 | U8 | U16 | U32 | U64.

Definition bits (t : ity) : Z :=
  match t with I8 | U8 => 8 | I16 | U16 => 16 | I32 | U32 => 32 | I64 | U64 => 64 end.

Definition signed (t : ity) : bool :=
  match t with I8 | I16 | I32 | I64 => true | U8 | U16 | U32 | U64 => false end.

(** Smallest and largest value ([std::numeric_limits]). *)
Definition tmin (t : ity) : Z := if signed t then - 2 ^ (bits t - 1) else 0.
Definition tmax (t : ity) : Z := if signed t then 2 ^ (bits t - 1) - 1 else 2 ^ bits t - 1.

Definition fitsb (t : ity) (v : Z) : bool := (tmin t <=? v) && (v <=? tmax t).

(** Implicit conversion to [t]. *)
Definition conv (t : ity) (v : Z) : Z := (v - tmin t) mod 2 ^ bits t + tmin t.

(** Integral promotion, and the usual arithmetic conversions. *)
Definition promoted (t : ity) : ity := if bits t <? 32 then I32 else t.

Definition common (a b : ity) : ity :=
  let a := promoted a in
  let b := promoted b in
  if Bool.eqb (signed a) (signed b) then (if bits a <? bits b then b else a)
  else if signed a then (if bits b <? bits a then a else b)
  else (if bits a <? bits b then b else a).

(** [v + 1] in an expression: overflow of a signed type is undefined. *)
Definition plus_one (t : ity) (v : Z) : res Z :=
  if fitsb (promoted t) (v + 1) then Ok (v + 1)
  else if signed (promoted t) then UB else Ok (conv (promoted t) (v + 1)).

(** [v++] on a variable of type [t]: converted back to [t]. *)
Definition increment (t : ity) (v : Z) : res Z := x <- plus_one t v ;; Ok (conv t x).

(** [labels_rename<L, A>] (GooseEYE.h:456-480): the map has the value type [A] of the table, to
    which the labels are converted; the result has the value type [L] of the labels. *)
Definition labels_rename_t (L A : ity) (asrt : bool) (labels : list Z) (nr nc : Z) (data : list Z)
  : res (list Z) :=
  _ <- assertb asrt (nc =? 2) ;;
  m <- rename_table nr nc data ;;
  _ <- (if asrt then
          foldM (fun _ l => assertb true (match mfind m (conv A l) with Some _ => true | None => false end))
                (unique labels) tt
        else Ok tt) ;;
  r <- foldM (fun acc l => let (m, ret) := (acc : zmap * list Z) in
                           let (m', v) := mindex m (conv A l) in Ok (m', ret ++ [conv L v]))
             labels (m, []) ;;
  Ok (snd r).

(** [labels_prune<T>] (GooseEYE.h:489-527): the row numbers ([size_t]) are converted to the
    value type of the labels. *)
Definition labels_prune_t (T : ity) (asrt : bool) (labels : list Z) : res (list Z) :=
  let unq := unique labels in
  let rows := map (fun r => (fst r, conv T (snd r))) (prune_table unq) in
  labels_rename_t T T asrt labels (lenZ unq) 2 (flat_rows rows).

(** [labels_reorder<L, A>] (GooseEYE.h:536-558): the assertion compares in the common type;
    [std::vector] throws [std::length_error] beyond [max_size()] (libstdc++: what fits in
    [PTRDIFF_MAX] bytes); its index is converted to [size_t].  Simplification: there is always
    enough memory. *)
Definition labels_reorder_t (L A : ity) (asrt : bool) (labels order : list Z) : res (list Z) :=
  _ <- assertb asrt (lenZ (unique labels) =? lenZ (unique order)) ;;
  _ <- assertb asrt (eqbl (map (conv (common L A)) (unique labels)) (map (conv (common L A)) (unique order))) ;;
  maxlab <- max_element order ;;
  n <- plus_one A maxlab ;;
  renum0 <- (if two63 - 1 <? u64 n * (bits A / 8) then Throw else Ok (repeat 0 (Z.to_nat (u64 n)))) ;;
  renum <- foldM (fun r i => o <- vget order i ;; vset r (u64 o) (conv A i)) (zseq 0 (length order)) renum0 ;;
  mapM (fun l => v <- vget renum (u64 l) ;; Ok (conv L v)) labels.

(** [labels_sizes_impl<T>] (GooseEYE.h:562-578): the sizes are counted in the value type of the
    labels. *)
Definition labels_sizes_impl_t (T : ity) (labels : list Z) : res zmap :=
  foldM (fun m l => match mfind m l with
                    | None => Ok (memplace m l 1)
                    | Some v => v' <- increment T v ;; Ok (mset m l v')
                    end) labels [].

(** [labels_sizes<T>(labels)] (GooseEYE.h:587-603): rows (label, size). *)
Definition labels_sizes_t (T : ity) (labels : list Z) : res zmap := labels_sizes_impl_t T labels.

(** [labels_sizes<T, N>(labels, names)] (GooseEYE.h:611-621): the names are converted to the
    value type of the labels. *)
Definition labels_sizes_names_t (T : ity) (labels names : list Z) : res (list Z) :=
  m <- labels_sizes_impl_t T labels ;;
  Ok (snd (fold_left (fun acc n => let (m, ret) := (acc : zmap * list Z) in
                                   let (m', v) := mindex m (conv T n) in (m', ret ++ [v]))
                     names (m, []))).
