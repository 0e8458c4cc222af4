(** * Cluster: model of [ClusterLabeller] and [clusters]

    include/GooseEYE/GooseEYE.h:623-1222.  One model for all ranks: the template parameter
    [Dimension] is the length of the shape, [Periodicity] is [g_per]. *)

From Coq Require Import ZArith List Bool Lia.
From Verif Require Import Base.
Import ListNotations.
Open Scope Z_scope.

(** ** Integer conversions
    [size_t] arithmetic is modulo 2^64; conversion to [ptrdiff_t] is two's complement. *)
Definition two64 : Z := 18446744073709551616.
Definition two63 : Z := 9223372036854775808.
Definition u64 (x : Z) : Z := x mod two64.
Definition s64 (x : Z) : Z := let y := u64 x in if y <? two63 then y else y - two64.

(** Row-major strides as computed by xtensor: axes of length 1 get stride 0
    (used through [m_label.strides()], GooseEYE.h:754). *)
Fixpoint strides (shape : list Z) : list Z :=
  match shape with
  | [] => []
  | n :: t => (if n =? 1 then 0 else zprod t) :: strides t
  end.

(** The constant members of a labeller: [m_shape], [Periodicity], [m_dx]
    (GooseEYE.h:674-683). *)
Record cfg := mkcfg { g_shape : list Z; g_per : bool; g_dx : list (list Z) }.

(** The mutable members: [m_label] (flattened), [m_new_label], [m_nmerge], [m_renum],
    [m_next] (GooseEYE.h:680-703).  [m_connected] is scratch space, see [connected_of]. *)
Record st := mkst {
  c_label : list Z; c_new : Z; c_nmerge : Z; c_renum : list Z; c_next : list Z }.

(** ** Construction *)

(** Default [m_dx] (GooseEYE.h:714-731); other ranks throw. *)
Definition default_dx (rank : nat) : res (list (list Z)) :=
  match rank with
  | 1%nat => Ok [[-1]; [1]]
  | 2%nat => Ok [[-1; 0]; [0; -1]; [0; 1]; [1; 0]]
  | 3%nat => Ok [[-1; 0; 0]; [0; -1; 0]; [0; 0; -1]; [0; 0; 1]; [0; 1; 0]; [1; 0; 0]]
  | _ => Throw
  end.

(** Multi-index of a flat row-major index (the value [xt::argwhere] stores per hit). *)
Fixpoint unravel (shape : list Z) (p : Z) : list Z :=
  match shape with
  | [] => []
  | _ :: t => (p / zprod t) :: unravel t (p mod zprod t)
  end.

(** Flat offset [sum_k index_k * stride_k] (xt::element_offset). *)
Fixpoint dot (a b : list Z) : Z :=
  match a, b with
  | x :: a', y :: b' => x * y + dot a' b'
  | _, _ => 0
  end.

(** [xt::argwhere] on a flattened array: row-major list of multi-indices of non-zeros. *)
Definition argwhere (shape vals : list Z) : list (list Z) :=
  map (fun ip => unravel shape (fst ip))
      (filter (fun ip => negb (snd ip =? 0)) (combine (zseq 0 (length vals)) vals)).

Fixpoint map2 (f : Z -> Z -> Z) (a b : list Z) : list Z :=
  match a, b with
  | x :: a', y :: b' => f x y :: map2 f a' b'
  | _, _ => []
  end.

(** [kernel_to_dx] (GooseEYE.h:630-662).  [kshape]/[kvals]: the kernel, flattened. *)
Definition kernel_to_dx (asrt : bool) (kshape kvals : list Z) : res (list (list Z)) :=
  _ <- assertb asrt (forallb (fun n => n mod 2 =? 1) kshape) ;;
  let mid := map (fun n => (n - 1) / 2) kshape in
  let idx := dot mid (strides kshape) in
  c <- vget kvals idx ;;
  _ <- assertb asrt (c =? 1) ;;
  kvals' <- vset kvals idx 0 ;;
  Ok (map (fun ix => map2 Z.sub ix mid) (argwhere kshape kvals')).

(** [init] + [reset] on fresh members (GooseEYE.h:746-782): labels 0, [m_renum] = iota,
    [m_next] = -1, [m_new_label] = 1, [m_nmerge] = 0 (member initialiser). *)
Definition init (g : cfg) : st :=
  let N := zprod (g_shape g) in
  mkst (repeat 0 (Z.to_nat N)) 1 0 (zseq 0 (Z.to_nat (N + 1)))
       (repeat (-1) (Z.to_nat (N + 1))).

(** Constructor without kernel (GooseEYE.h:714-731). *)
Definition make_default (shape : list Z) (per : bool) : res cfg :=
  dx <- default_dx (length shape) ;; Ok (mkcfg shape per dx).

(** Constructor with kernel (GooseEYE.h:738-742). *)
Definition make_kernel (asrt : bool) (shape : list Z) (per : bool) (kshape kvals : list Z)
  : res cfg :=
  dx <- kernel_to_dx asrt kshape kvals ;; Ok (mkcfg shape per dx).

(** ** Neighbours *)

(** [(m_shape[k] + x + dx) % m_shape[k]] where [x] is a [size_t]: all operands are
    converted to [size_t]. *)
Definition wrap_unsigned (n x d : Z) : Z := u64 (u64 (n + x) + d) mod n.

(** [xt::unravel_from_strides]: signed division, 0 when the stride is 0. *)
Fixpoint unravel_strides (str : list Z) (p : Z) : list Z :=
  match str with
  | [] => []
  | s :: t => if s =? 0 then 0 :: unravel_strides t p
              else Z.quot p s :: unravel_strides t (Z.rem p s)
  end.

(** The loop over [d] of [get_compare_default] for rank >= 3 (GooseEYE.h:962-973);
    [None] is [return -1]. *)
Fixpoint shift_loop (per : bool) (shape index d : list Z) : option (list Z) :=
  match shape, index, d with
  | n :: shape', i :: index', dd :: d' =>
      let i1 := i + dd in
      if per then
        match shift_loop per shape' index' d' with
        | Some r => Some (Z.rem (n + Z.rem i1 n) n :: r)
        | None => None
        end
      else if (i1 <? 0) || (n <=? i1) then None
      else match shift_loop per shape' index' d' with
           | Some r => Some (i1 :: r)
           | None => None
           end
  | _, _, _ => Some []
  end.

(** [get_compare_default], [get_compare_2d_1n], [get_compare_2d_n1] and their selection in
    [init] (GooseEYE.h:762-769, 895-976).  [d] is one row of [m_dx]; a division by a zero
    [m_shape]/[m_strides] entry or a row of the wrong length is [UB]. *)
Definition get_compare (g : cfg) (idx : Z) (d : list Z) : res Z :=
  match g_shape g, d with
  | [n], [d0] =>
      if n =? 0 then UB
      else if g_per g then Ok (s64 (wrap_unsigned n idx d0))
      else let c := s64 (idx + d0) in
           if (c <? 0) || (n <=? c) then Ok (-1) else Ok (s64 (idx + d0))
  | [n0; n1], [d0; d1] =>
      if (n0 =? 0) || (n1 =? 0) then UB
      else if n0 =? 1 then
        if g_per g then Ok (s64 (wrap_unsigned n1 idx d1))
        else let c := s64 (idx + d1) in
             if (c <? 0) || (n1 <=? c) then Ok (-1) else Ok c
      else if n1 =? 1 then
        if g_per g then Ok (s64 (wrap_unsigned n0 idx d0))
        else let c := s64 (idx + d0) in
             if (c <? 0) || (n0 <=? c) then Ok (-1) else Ok c
      else (* m_strides[0] = n1 *)
        if g_per g then
          let ii := s64 (wrap_unsigned n0 (idx / n1) d0) in
          let jj := s64 (wrap_unsigned n1 (idx mod n1) d1) in
          Ok (ii * n1 + jj)
        else
          let ii := s64 (idx / n1 + d0) in
          let jj := s64 (idx mod n1 + d1) in
          if (ii <? 0) || (n0 <=? ii) || (jj <? 0) || (n1 <=? jj) then Ok (-1)
          else Ok (ii * n1 + jj)
  | _, _ =>
      if existsb (fun n => n =? 0) (g_shape g) then UB
      else if negb (Nat.eqb (length d) (length (g_shape g))) then UB
      else match shift_loop (g_per g) (g_shape g)
                   (unravel_strides (strides (g_shape g)) idx) d with
           | None => Ok (-1)
           | Some ix => Ok (dot ix (strides (g_shape g)))
           end
  end.

(** ** Merging *)

(** First loop of [merge_detail] (GooseEYE.h:838-844). *)
Fixpoint relabel (fuel : nat) (next renum : list Z) (i target : Z) : res (list Z) :=
  match fuel with
  | O => NoFuel
  | S f =>
      i' <- vget next i ;;
      if i' =? -1 then Ok renum
      else r <- vset renum i' target ;; relabel f next r i' target
  end.

(** Second loop of [merge_detail] (GooseEYE.h:846-848). *)
Fixpoint list_end (fuel : nat) (next : list Z) (a : Z) : res Z :=
  match fuel with
  | O => NoFuel
  | S f =>
      a' <- vget next a ;;
      if a' =? -1 then Ok a else list_end f next a'
  end.

(** [merge_detail] (GooseEYE.h:832-850).  Fuel: one more than the number of labels. *)
Definition merge_detail (s : st) (a b : Z) : res st :=
  i <- vget (c_renum s) b ;;
  target <- vget (c_renum s) a ;;
  renum1 <- vset (c_renum s) b target ;;
  renum2 <- relabel (length (c_next s)) (c_next s) renum1 i target ;;
  e <- list_end (length (c_next s)) (c_next s) a ;;
  next' <- vset (c_next s) e b ;;
  Ok (mkst (c_label s) (c_new s) (c_nmerge s) renum2 next').

(** [std::sort] *)
Fixpoint zinsert (x : Z) (l : list Z) : list Z :=
  match l with
  | [] => [x]
  | y :: t => if x <=? y then x :: l else y :: zinsert x t
  end.
Definition zsort (l : list Z) : list Z := fold_right zinsert [] l.

(** [std::unique]: drop consecutive duplicates. *)
Fixpoint dedup (l : list Z) : list Z :=
  match l with
  | [] => []
  | x :: t => match t with
              | [] => [x]
              | y :: _ => if x =? y then dedup t else x :: dedup t
              end
  end.

(** [unique] (GooseEYE.h:858-862). *)
Definition unique (l : list Z) : list Z := dedup (zsort l).

(** [merge] (GooseEYE.h:871-878). *)
Definition merge (s : st) (labels : list Z) : res (st * Z) :=
  match labels with
  | [] => UB
  | target :: rest =>
      s' <- foldM (fun s b => merge_detail s target b) rest s ;; Ok (s', target)
  end.

(** ** Labelling one pixel *)

(** First loop of [label_impl] (GooseEYE.h:982-993).  [m_connected] has one slot per row
    of [m_dx], so the append never overflows. *)
Definition connected_of (g : cfg) (s : st) (idx : Z) : res (list Z) :=
  foldM (fun acc d =>
           c <- get_compare g idx d ;;
           if negb (g_per g) && (c =? -1) then Ok acc
           else l <- vget (c_label s) c ;;
                if l =? 0 then Ok acc
                else r <- vget (c_renum s) l ;; Ok (acc ++ [r]))
        (g_dx g) [].

Definition set_label (s : st) (idx v : Z) : res st :=
  l <- vset (c_label s) idx v ;;
  Ok (mkst l (c_new s) (c_nmerge s) (c_renum s) (c_next s)).

(** [label_impl] (GooseEYE.h:978-1017). *)
Definition label_impl (g : cfg) (s : st) (idx : Z) : res st :=
  conn <- connected_of g s idx ;;
  match conn with
  | [] =>
      s' <- set_label s idx (c_new s) ;;
      Ok (mkst (c_label s') (c_new s + 1) (c_nmerge s') (c_renum s') (c_next s'))
  | [c] => set_label s idx c
  | _ =>
      match unique conn with
      | [c] => set_label s idx c
      | u =>
          st' <- merge s u ;;
          let (s1, t) := st' in
          s2 <- set_label s1 idx t ;;
          Ok (mkst (c_label s2) (c_new s2) (c_nmerge s2 + 1) (c_renum s2) (c_next s2))
      end
  end.

(** [private_renumber] (GooseEYE.h:817-822). *)
Definition private_renumber (label renum : list Z) : res (list Z) :=
  mapM (fun l => vget renum l) label.

(** [apply_merge] (GooseEYE.h:880-889). *)
Definition apply_merge (s : st) : res st :=
  if c_nmerge s =? 0 then Ok s
  else l <- private_renumber (c_label s) (c_renum s) ;;
       Ok (mkst l (c_new s) 0 (c_renum s) (repeat (-1) (length (c_next s)))).

(** ** Public calls *)

(** [xt::has_shape]. *)
Fixpoint eqbl (a b : list Z) : bool :=
  match a, b with
  | [], [] => true
  | x :: a', y :: b' => (x =? y) && eqbl a' b'
  | _, _ => false
  end.

(** [add_image] (GooseEYE.h:1025-1039). *)
Definition add_image (asrt : bool) (g : cfg) (s : st) (ishape img : list Z) : res st :=
  _ <- assertb asrt (eqbl ishape (g_shape g)) ;;
  s' <- foldM (fun s idx =>
                 v <- vget img idx ;;
                 if v =? 0 then Ok s
                 else l <- vget (c_label s) idx ;;
                      if negb (l =? 0) then Ok s else label_impl g s idx)
              (zseq 0 (length img)) s ;;
  apply_merge s'.

(** [legal_points] (GooseEYE.h:1043-1052).  The lambda takes a [size_t], so that a
    negative index becomes huge and is rejected. *)
Definition legal_points (s : st) (idx : list Z) : bool :=
  forallb (fun i => u64 i <? lenZ (c_label s)) idx.

(** [add_points] (GooseEYE.h:1061-1082). *)
Definition add_points (asrt : bool) (g : cfg) (s : st) (idx : list Z) : res st :=
  _ <- assertb asrt (legal_points s idx) ;;
  s' <- foldM (fun s i =>
                 l <- vget (c_label s) i ;;
                 if negb (l =? 0) then Ok s else label_impl g s i) idx s ;;
  apply_merge s'.

(** Inner [for] of [add_sequence] (GooseEYE.h:1105-1119): [rest] is [idx(i), idx(i+1), ...].
    Returns the state, the value of [i] on exit and whether [i] was pushed. *)
Fixpoint seq_inner (g : cfg) (s : st) (nl nm lab : Z) (i : Z) (rest : list Z)
  : res (st * Z * bool) :=
  match rest with
  | [] => Ok (s, i, false)
  | p :: rest' =>
      l <- vget (c_label s) p ;;
      if negb (l =? lab) && negb (l =? 0) then Ok (s, i, true)
      else if negb (l =? 0) then seq_inner g s nl nm lab (i + 1) rest'
      else s' <- label_impl g s p ;;
           if negb (c_new s' =? nl) || negb (c_nmerge s' =? nm) then Ok (s', i, true)
           else seq_inner g s' nl nm lab (i + 1) rest'
  end.

(** Outer [while (true)] of [add_sequence] (GooseEYE.h:1100-1124). *)
Fixpoint seq_outer (fuel : nat) (g : cfg) (s : st) (idx : list Z) (i : Z) (ret : list Z)
  : res (st * list Z) :=
  match fuel with
  | O => NoFuel
  | S f =>
      p <- vget idx i ;;
      lab <- vget (c_label s) p ;;
      r <- seq_inner g s (c_new s) (c_nmerge s) lab i (skipn (Z.to_nat i) idx) ;;
      let '(s', i', pushed) := r in
      let ret' := if pushed then ret ++ [i'] else ret in
      if i' =? lenZ idx then Ok (s', ret') else seq_outer f g s' idx i' ret'
  end.

(** [add_sequence] (GooseEYE.h:1093-1129). *)
Definition add_sequence (asrt : bool) (g : cfg) (s : st) (idx : list Z)
  : res (st * list Z) :=
  _ <- assertb asrt (1 <=? lenZ idx) ;;
  _ <- assertb asrt (legal_points s idx) ;;
  r <- seq_outer (2 * length idx + 2) g s idx 0 [] ;;
  let (s1, ret) := r in
  s2 <- apply_merge s1 ;;
  Ok (s2, ret ++ [lenZ idx]).

(** [reset] (GooseEYE.h:776-782): note that [m_nmerge] is not touched. *)
Definition reset (s : st) : st :=
  mkst (repeat 0 (length (c_label s))) 1 (c_nmerge s) (zseq 0 (length (c_renum s)))
       (repeat (-1) (length (c_next s))).

(** First loop of [prune] (GooseEYE.h:793-798). *)
Definition prune_loop (n : Z) (renum : list Z) : res (list Z * Z) :=
  foldM (fun acc i =>
           let (renum, new) := (acc : list Z * Z) in
           r <- vget renum i ;;
           if r =? i then renum' <- vset renum i new ;; Ok (renum', new + 1)
           else Ok (renum, new))
        (zrange 1 n) (renum, 1).

(** [std::iota(begin, begin + n, 0)]. *)
Definition iota (n : Z) (l : list Z) : res (list Z) :=
  if (n <? 0) || (lenZ l <? n) then UB
  else Ok (zseq 0 (Z.to_nat n) ++ skipn (Z.to_nat n) l).

(** [prune] (GooseEYE.h:788-801). *)
Definition prune (s : st) : res st :=
  renum0 <- vset (c_renum s) 0 0 ;;
  r <- prune_loop (c_new s) renum0 ;;
  let (renum1, new) := r in
  l <- private_renumber (c_label s) renum1 ;;
  renum2 <- iota (c_new s) renum1 ;;
  Ok (mkst l new (c_nmerge s) renum2 (c_next s)).

(** The public calls, for histories. *)
Inductive op :=
| AddImage (ishape img : list Z)
| AddPoints (idx : list Z)
| AddSequence (idx : list Z)
| Prune
| Reset.

(** One call: new state and returned list ([[]] for the [void] functions). *)
Definition step (asrt : bool) (g : cfg) (s : st) (o : op) : res (st * list Z) :=
  match o with
  | AddImage sh img => s' <- add_image asrt g s sh img ;; Ok (s', [])
  | AddPoints idx => s' <- add_points asrt g s idx ;; Ok (s', [])
  | AddSequence idx => add_sequence asrt g s idx
  | Prune => s' <- prune s ;; Ok (s', [])
  | Reset => Ok (reset s, [])
  end.

(** A history of calls; collects the returned lists. *)
Fixpoint run_from (asrt : bool) (g : cfg) (s : st) (ops : list op)
  : res (st * list (list Z)) :=
  match ops with
  | [] => Ok (s, [])
  | o :: rest =>
      r <- step asrt g s o ;;
      let (s1, out) := r in
      q <- run_from asrt g s1 rest ;;
      let (s2, outs) := q in
      Ok (s2, out :: outs)
  end.

Definition run (asrt : bool) (g : cfg) (ops : list op) : res (st * list (list Z)) :=
  run_from asrt g (init g) ops.

(** [clusters] via [ClusterLabellerOverload] (GooseEYE.h:1174-1222).  The conversion of the
    labels from [ptrdiff_t] to [int] is in ClustersInt.v. *)
Definition clusters (asrt : bool) (shape img : list Z) (per : bool) : res (list Z) :=
  g <- make_default shape per ;;
  s <- add_image asrt g (init g) shape img ;;
  s' <- prune s ;;
  Ok (c_label s').
