(** * BindingsPy: model of the Python bindings outside [Ensemble] (python/main.cpp:28-225)

    Arrays are those of EnsemblePy.v.  A Python call has positional and named arguments: arrays
    of rank one or more, integers and booleans.  Modelled of pybind11: how arguments are matched
    with the parameters of an overload, and the two passes over the overloads (without, then
    with conversion).  Modelled of xtensor-python: [xt::pyarray<T>] loads an array of exactly
    dtype [T], and with conversion every array or number; [xt::pytensor<T, N>] in addition
    requires [N] axes (a number has none; the calls [dilate(labels, iterations=1)] of
    tests/test_clusters_example.py:260 need that such an overload is passed over).  Not modelled:
    arrays of one element as numbers or booleans. *)

From Coq Require Import ZArith QArith Qcanon List Bool String.
From Verif Require Import Base Cluster Kernel Labels Dilate Ensemble EnsemblePy.
Import ListNotations.
Open Scope Z_scope.

(** ** Casts of arrays *)

(** To [int] and to [ptrdiff_t]: truncation towards zero; values out of range are undefined. *)
Definition long_range (z : Z) : bool := (- two63 <=? z) && (z <? two63).
Definition to_signed (range : Z -> bool) (a : array) : res (img Z) :=
  if forallb (fun q => range (trunc q)) (a_vals a) then Ok (mkimg (a_shape a) (map trunc (a_vals a))) else UB.
Definition to_int : array -> res (img Z) := to_signed int_range.
Definition to_long : array -> res (img Z) := to_signed long_range.

(** To [size_t]: integers modulo 2^64; floating point numbers out of range are undefined. *)
Definition is_float (t : dtype) : bool := match t with Float32 | Float64 => true | _ => false end.
Definition to_size (a : array) : res (list Z) :=
  let v := map trunc (a_vals a) in
  if is_float (a_dtype a) && negb (forallb (fun z => (0 <=? z) && (z <? two64)) v) then UB else Ok (map u64 v).

(** [pytensor<T, N>]: the rank is checked when the argument is loaded ([TypeError] or another
    error; no function is called). *)
Definition with_rank {A} (n : Z) (a : array) (x : res A) : res A := if lenZ (a_shape a) =? n then x else Throw.

(** ** Functions with one overload for the number of arguments given *)

(** [clusters] (main.cpp:157-161) *)
Definition py_clusters (asrt : bool) (f : array) (per : bool) : res (list Z) :=
  i <- to_long f ;; clusters asrt (i_shape i) (i_vals i) per.

(** [labels_map] (main.cpp:163), [labels_rename] (165-169), [labels_prune] (171), [labels_reorder]
    (173-177), [labels_sizes] (179-190) *)
Definition py_labels_map (a b : array) : res zmap :=
  i <- to_long a ;; j <- to_long b ;; labels_map (i_vals i) (i_vals j).
Definition py_labels_rename (asrt : bool) (labels rename : array) : res (list Z) :=
  i <- to_long labels ;; r <- with_rank 2 rename (to_long rename) ;;
  labels_rename asrt (i_vals i) (zn (i_shape r) 0) (zn (i_shape r) 1) (i_vals r).
Definition py_labels_prune (asrt : bool) (labels : array) : res (list Z) :=
  i <- to_long labels ;; labels_prune asrt (i_vals i).
Definition py_labels_reorder (asrt : bool) (labels order : array) : res (list Z) :=
  i <- to_long labels ;; o <- with_rank 1 order (to_long order) ;; labels_reorder asrt (i_vals i) (i_vals o).
Definition py_labels_sizes (labels : array) : res zmap :=
  i <- to_long labels ;; Ok (labels_sizes (i_vals i)).
Definition py_labels_sizes_names (labels names : array) : res (list Z) :=
  i <- to_long labels ;; n <- with_rank 1 names (to_long names) ;; Ok (labels_sizes_names (i_vals i) (i_vals n)).

(** The methods of the labeller (main.cpp:49-66). *)
Inductive py_op := PyAddImage (img : array) | PyAddPoints (idx : array) | PyAddSequence (idx : array) | PyPrune | PyReset.

Definition py_load_op (g : cfg) (o : py_op) : res op :=
  match o with
  | PyAddImage a => i <- with_rank (lenZ (g_shape g)) a (to_int a) ;; Ok (AddImage (i_shape i) (i_vals i))
  | PyAddPoints a => l <- with_rank 1 a (to_size a) ;; Ok (AddPoints l)
  | PyAddSequence a => l <- with_rank 1 a (to_size a) ;; Ok (AddSequence l)
  | PyPrune => Ok Prune
  | PyReset => Ok Reset
  end.

Definition py_step (asrt : bool) (g : cfg) (s : st) (o : py_op) : res (st * list Z) :=
  o <- py_load_op g o ;; step asrt g s o.

(** A history of calls; an error ends it. *)
Fixpoint py_run_from (asrt : bool) (g : cfg) (s : st) (ops : list py_op) : res (st * list (list Z)) :=
  match ops with
  | [] => Ok (s, [])
  | o :: rest =>
      r <- py_step asrt g s o ;;
      let (s1, out) := r in
      q <- py_run_from asrt g s1 rest ;;
      let (s2, outs) := q in
      Ok (s2, out :: outs)
  end.
Definition py_run (asrt : bool) (g : cfg) (ops : list py_op) : res (st * list (list Z)) := py_run_from asrt g (init g) ops.

(** ** [dilate] (main.cpp:115-150) *)

Inductive pyarg := PyArr (a : array) | PyNum (n : Z) | PyBool (b : bool).

Inductive ptype := TImage | TVector | TSize | TBool.
Inductive value := VImage (i : img Z) | VVector (l : list Z) | VSize (n : Z) | VBool (b : bool).

(** [None]: the argument does not load; a cast may be undefined. *)
Definition load_arg (convert : bool) (t : ptype) (x : pyarg) : option (res value) :=
  match t, x with
  | TImage, PyArr a =>
      if convert || match a_dtype a with Int32 => true | _ => false end
      then Some (i <- to_int a ;; Ok (VImage i)) else None
  | TImage, PyNum n => if convert && int_range n then Some (Ok (VImage (mkimg [] [n]))) else None
  | TImage, PyBool b => if convert then Some (Ok (VImage (mkimg [] [Z.b2z b]))) else None
  | TVector, PyArr a =>
      if (convert || match a_dtype a with UInt64 => true | _ => false end) && (lenZ (a_shape a) =? 1)
      then Some (l <- to_size a ;; Ok (VVector l)) else None
  | TVector, _ => None
  | TSize, PyNum n => if (0 <=? n) && (n <? two64) then Some (Ok (VSize n)) else None
  | TSize, PyBool b => Some (Ok (VSize (Z.b2z b)))
  | TSize, PyArr _ => None
  | TBool, PyBool b => Some (Ok (VBool b))
  | TBool, PyNum n => if convert then Some (Ok (VBool (negb (n =? 0)))) else None
  | TBool, PyArr _ => None
  end.

Record parameter := mkparam { p_name : string; p_type : ptype; p_default : option pyarg }.

Definition named (n : string) (kw : list (string * pyarg)) : option pyarg :=
  match find (fun k => String.eqb (fst k) n) kw with Some k => Some (snd k) | None => None end.

(** The argument of every parameter: positional arguments first, then by name, then the default.
    Too many positional arguments, or names that are unknown or already given by position: the
    overload does not apply. *)
Fixpoint match_args (ps : list parameter) (pos : list pyarg) (kw : list (string * pyarg)) : option (list (ptype * pyarg)) :=
  match ps, pos with
  | [], [] => if forallb (fun _ => false) kw then Some [] else None
  | [], _ :: _ => None
  | p :: ps', x :: pos' =>
      match match_args ps' pos' kw with Some l => Some ((p_type p, x) :: l) | None => None end
  | p :: ps', [] =>
      match match named (p_name p) kw with Some x => Some x | None => p_default p end with
      | Some x =>
          match match_args ps' [] (filter (fun k => negb (String.eqb (fst k) (p_name p))) kw) with
          | Some l => Some ((p_type p, x) :: l)
          | None => None
          end
      | None => None
      end
  end.

Fixpoint load_args (convert : bool) (l : list (ptype * pyarg)) : option (res (list value)) :=
  match l with
  | [] => Some (Ok [])
  | (t, x) :: l' =>
      match load_arg convert t x with
      | None => None
      | Some v =>
          match load_args convert l' with
          | None => None
          | Some vs => Some (v <- v ;; vs <- vs ;; Ok (v :: vs))
          end
      end
  end.

Definition try_overload {A} (convert : bool) (pos : list pyarg) (kw : list (string * pyarg))
  (o : list parameter * (list value -> res A)) : option (res A) :=
  match match_args (fst o) pos kw with
  | None => None
  | Some l => match load_args convert l with None => None | Some vs => Some (vs <- vs ;; snd o vs) end
  end.

Fixpoint first_some {A B} (f : A -> option B) (l : list A) : option B :=
  match l with [] => None | x :: l' => match f x with Some y => Some y | None => first_some f l' end end.

(** [TypeError] if no overload applies. *)
Definition call_overloads {A} (os : list (list parameter * (list value -> res A))) (pos : list pyarg) (kw : list (string * pyarg)) : res A :=
  match first_some (try_overload false pos kw) os with
  | Some r => r
  | None => match first_some (try_overload true pos kw) os with Some r => r | None => Throw end
  end.

Local Open Scope string_scope.

Definition dilate_overloads (asrt : bool) : list (list parameter * (list value -> res (list Z))) :=
  [ (* 115-125 *)
    ([mkparam "f" TImage None; mkparam "kernel" TImage None; mkparam "iterations" TVector None; mkparam "periodic" TBool (Some (PyBool true))],
     fun l => match l with
              | [VImage f; VImage k; VVector it; VBool per] => dilate asrt (i_shape f) (i_vals f) (i_shape k) (i_vals k) it per
              | _ => UB end);
    (* 127-133 *)
    ([mkparam "f" TImage None; mkparam "iterations" TVector None; mkparam "periodic" TBool (Some (PyBool true))],
     fun l => match l with
              | [VImage f; VVector it; VBool per] => dilate_default asrt (i_shape f) (i_vals f) it per
              | _ => UB end);
    (* 135-142 *)
    ([mkparam "f" TImage None; mkparam "kernel" TImage None; mkparam "iterations" TSize (Some (PyNum 1)); mkparam "periodic" TBool (Some (PyBool true))],
     fun l => match l with
              | [VImage f; VImage k; VSize n; VBool per] => dilate_n asrt (i_shape f) (i_vals f) (i_shape k) (i_vals k) n per
              | _ => UB end);
    (* 144-150 *)
    ([mkparam "f" TImage None; mkparam "iterations" TSize (Some (PyNum 1)); mkparam "periodic" TBool (Some (PyBool true))],
     fun l => match l with
              | [VImage f; VSize n; VBool per] => dilate_default_n asrt (i_shape f) (i_vals f) n per
              | _ => UB end) ].

Definition py_dilate (asrt : bool) (pos : list pyarg) (kw : list (string * pyarg)) : res (list Z) :=
  call_overloads (dilate_overloads asrt) pos kw.
