(** * Labels: model of the label utilities (GooseEYE.h:420-621)

    Label images are flattened: the functions below only use [size()] and [flat(i)].
    Values are unbounded integers here; LabelsTyped.v has the value types of C++. *)

From Coq Require Import ZArith List Bool.
From Verif Require Import Base Cluster.
Import ListNotations.
Open Scope Z_scope.

(** ** [std::map<value_type, value_type>]: association list in key order *)
Definition zmap := list (Z * Z).

Fixpoint mfind (m : zmap) (k : Z) : option Z :=
  match m with
  | [] => None
  | (k', v) :: t => if k =? k' then Some v else mfind t k
  end.

(** [emplace]/[try_emplace]: insert at the place given by the key order, keep an existing
    entry. *)
Fixpoint memplace (m : zmap) (k v : Z) : zmap :=
  match m with
  | [] => [(k, v)]
  | (k', v') :: t =>
      if k <? k' then (k, v) :: m
      else if k =? k' then m
      else (k', v') :: memplace t k v
  end.

(** Overwrite the value of an existing key. *)
Fixpoint mset (m : zmap) (k v : Z) : zmap :=
  match m with
  | [] => []
  | (k', v') :: t => if k =? k' then (k', v) :: t else (k', v') :: mset t k v
  end.

(** [map[k]] as an rvalue: value-initialise (0) if absent. *)
Definition mindex (m : zmap) (k : Z) : zmap * Z :=
  match mfind m k with
  | Some v => (m, v)
  | None => (memplace m k 0, 0)
  end.

(** [labels_map] (GooseEYE.h:427-448): rows (old, new). *)
Definition labels_map (a b : list Z) : res zmap :=
  foldM (fun m i => x <- vget a i ;; y <- vget b i ;; Ok (memplace m x y))
        (zseq 0 (length a)) [].

(** Element [(i, j)] of a two-dimensional row-major array of [nr] by [nc]: xtensor gives
    axes of length 1 the stride 0. *)
Definition at2 (nr nc : Z) (data : list Z) (i j : Z) : res Z :=
  vget data (i * (if nr =? 1 then 0 else nc) + j * (if nc =? 1 then 0 else 1)).

(** The table of [labels_rename] (GooseEYE.h:462-465). *)
Definition rename_table (nr nc : Z) (data : list Z) : res zmap :=
  foldM (fun m i => k <- at2 nr nc data i 0 ;; v <- at2 nr nc data i 1 ;; Ok (memplace m k v))
        (zrange 0 nr) [].

(** [labels_rename] (GooseEYE.h:456-480); [rename] has shape [nr] by [nc] (the assertion on
    [dimension()] is met by construction). *)
Definition labels_rename (asrt : bool) (labels : list Z) (nr nc : Z) (data : list Z)
  : res (list Z) :=
  _ <- assertb asrt (nc =? 2) ;;
  m <- rename_table nr nc data ;;
  _ <- (if asrt then
          foldM (fun _ l => assertb true (match mfind m l with Some _ => true | None => false end))
                (unique labels) tt
        else Ok tt) ;;
  r <- foldM (fun acc l => let (m, ret) := (acc : zmap * list Z) in
                           let (m', v) := mindex m l in Ok (m', ret ++ [v]))
             labels (m, []) ;;
  Ok (snd r).

(** [labels_prune] (GooseEYE.h:489-527): the table, row by row. *)
Definition prune_table (unq : list Z) : list (Z * Z) :=
  if existsb (Z.eqb 0) unq then
    (0, 0) ::
    match unq with
    | [] => []
    | u0 :: rest =>
        if u0 =? 0 then combine rest (zseq 1 (length rest))
        else let f := filter (fun u => negb (u =? 0)) unq in combine f (zseq 1 (length f))
    end
  else combine unq (zseq 1 (length unq)).

Definition flat_rows (rows : list (Z * Z)) : list Z := flat_map (fun r => [fst r; snd r]) rows.

Definition labels_prune (asrt : bool) (labels : list Z) : res (list Z) :=
  let unq := unique labels in
  let rows := prune_table unq in
  labels_rename asrt labels (lenZ unq) 2 (flat_rows rows).

(** [*std::max_element(begin, end)]; the end iterator is dereferenced when empty. *)
Definition max_element (l : list Z) : res Z :=
  match l with
  | [] => UB
  | x :: t => Ok (fold_left Z.max t x)
  end.

(** [labels_reorder] (GooseEYE.h:536-558).  [std::vector(n)] with a negative [n] (converted
    to a huge [size_t]) throws [std::length_error]. *)
Definition labels_reorder (asrt : bool) (labels order : list Z) : res (list Z) :=
  _ <- assertb asrt (lenZ (unique labels) =? lenZ (unique order)) ;;
  _ <- assertb asrt (eqbl (unique labels) (unique order)) ;;
  maxlab <- max_element order ;;
  renum0 <- (if maxlab + 1 <? 0 then Throw else Ok (repeat 0 (Z.to_nat (maxlab + 1)))) ;;
  renum <- foldM (fun r i => o <- vget order i ;; vset r o i) (zseq 0 (length order)) renum0 ;;
  mapM (fun l => vget renum l) labels.

(** [labels_sizes_impl] (GooseEYE.h:562-578). *)
Definition labels_sizes_impl (labels : list Z) : zmap :=
  fold_left (fun m l => match mfind m l with
                        | None => memplace m l 1
                        | Some v => mset m l (v + 1)
                        end) labels [].

(** [labels_sizes(labels)] (GooseEYE.h:587-603): rows (label, size). *)
Definition labels_sizes (labels : list Z) : zmap := labels_sizes_impl labels.

(** [labels_sizes(labels, names)] (GooseEYE.h:611-621). *)
Definition labels_sizes_names (labels names : list Z) : list Z :=
  snd (fold_left (fun acc n => let (m, ret) := (acc : zmap * list Z) in
                               let (m', v) := mindex m n in (m', ret ++ [v]))
                 names (labels_sizes_impl labels, [])).
