(** * EnsemblePy: model of the Python bindings of [Ensemble] and of its wrappers
    (python/main.cpp:225-689)

    A NumPy array is a dtype, a shape and values, which are exact rationals here (rounding of
    64-bit integers and of [float32] is not modelled).  Modelled of pybind11: the overloads of a
    name are tried in the order of their definition, first without conversion of arguments, then
    with; an overload applies if the number of arguments fits and every argument loads.  Modelled
    of xtensor-python: without conversion [xt::pyarray<T>] loads only arrays of exactly that
    dtype, with conversion any array of numbers, cast as [ndarray.astype] does: to [int] by
    truncation (outside the range of [int] the outcome is undefined).

    Arguments are the arrays, in the order of the signature; [mode], [periodic] and [roi] always
    load.  For names of arguments, and one-element arrays or flags, see EnsembleCall.v. *)

From Coq Require Import ZArith QArith Qcanon List Bool.
From Verif Require Import Base Path Ensemble.
Import ListNotations.
Open Scope Z_scope.

Inductive dtype := Bool8 | Int32 | Int64 | UInt64 | Float32 | Float64.
Record array := mkarray { a_dtype : dtype; a_shape : list Z; a_vals : list Qc }.

(** [xt::pyarray<int>], [xt::pyarray<double>]: parameter types, and arguments as loaded. *)
Inductive param := PInt | PDouble.
Inductive arg := AInt (i : img Z) | ADouble (i : img Qc).

Definition exact_match (p : param) (a : array) : bool :=
  match p, a_dtype a with
  | PInt, Int32 | PDouble, Float64 => true
  | _, _ => false
  end.

(** Truncation towards zero; the range of [int]. *)
Definition trunc (q : Qc) : Z := Z.quot (Qnum (this q)) (Zpos (Qden (this q))).
Definition int_range (z : Z) : bool := (- 2 ^ 31 <=? z) && (z <? 2 ^ 31).

Definition load (p : param) (a : array) : res arg :=
  match p with
  | PInt => if forallb (fun q => int_range (trunc q)) (a_vals a)
            then Ok (AInt (mkimg (a_shape a) (map trunc (a_vals a)))) else UB
  | PDouble => Ok (ADouble (mkimg (a_shape a) (a_vals a)))
  end.

(** An overload: its array parameters, and the call it makes. *)
Record overload := mkoverload { o_params : list param; o_call : list arg -> res call }.

Fixpoint applies (convert : bool) (ps : list param) (args : list array) : bool :=
  match ps, args with
  | [], [] => true
  | p :: ps', a :: args' => (convert || exact_match p a) && applies convert ps' args'
  | _, _ => false
  end.

Fixpoint load_all (ps : list param) (args : list array) : res (list arg) :=
  match ps, args with
  | p :: ps', a :: args' => x <- load p a ;; l <- load_all ps' args' ;; Ok (x :: l)
  | _, _ => Ok []
  end.

Definition enter (o : overload) (args : list array) : res call :=
  l <- load_all (o_params o) args ;; o_call o l.

(** Two passes; [TypeError] if no overload applies. *)
Definition dispatch (os : list overload) (args : list array) : res call :=
  match find (fun o => applies false (o_params o) args) os with
  | Some o => enter o args
  | None =>
      match find (fun o => applies true (o_params o) args) os with
      | Some o => enter o args
      | None => Throw
      end
  end.

(** Images of integers are converted to [double] where the statistic is computed
    (Ensemble_S2.hpp:46-47, Ensemble_W2.hpp:43-44, Ensemble_W2c.hpp:45). *)
Definition widen (i : img Z) : img Qc := mkimg (i_shape i) (map zq (i_vals i)).

Inductive method := M_mean | M_S2 | M_heightheight | M_C2 | M_W2 | M_W2c | M_L.

(** The overloads in the order of python/main.cpp: mean 264-275, S2 279-304 (wrapper 452-498),
    heightheight 308-319 (wrapper 649-673), C2 323-341 (wrapper 503-534), W2 345-368 (wrapper
    539-584), W2c 372-410 (wrapper 588-645), L 414-418 (wrapper 675-688). *)
Definition overloads (m : method) (mode : path_mode) : list overload :=
  match m with
  | M_mean =>
      [ mkoverload [PDouble] (fun l => match l with [ADouble f] => Ok (Mean f) | _ => UB end);
        mkoverload [PDouble; PInt] (fun l => match l with [ADouble f; AInt fm] => Ok (MeanMasked f fm) | _ => UB end) ]
  | M_S2 =>
      [ mkoverload [PInt; PInt] (fun l => match l with [AInt f; AInt g] => Ok (CallS2 (widen f) (widen g) None) | _ => UB end);
        mkoverload [PDouble; PDouble] (fun l => match l with [ADouble f; ADouble g] => Ok (CallS2 f g None) | _ => UB end);
        mkoverload [PDouble; PDouble; PInt; PInt]
          (fun l => match l with [ADouble f; ADouble g; AInt fm; AInt gm] => Ok (CallS2 f g (Some (fm, gm))) | _ => UB end) ]
  | M_heightheight =>
      [ mkoverload [PDouble] (fun l => match l with [ADouble f] => Ok (CallHH f None) | _ => UB end);
        mkoverload [PDouble; PInt] (fun l => match l with [ADouble f; AInt fm] => Ok (CallHH f (Some fm)) | _ => UB end) ]
  | M_C2 =>
      [ mkoverload [PInt; PInt] (fun l => match l with [AInt f; AInt g] => Ok (CallC2 f g None) | _ => UB end);
        mkoverload [PInt; PInt; PInt; PInt]
          (fun l => match l with [AInt f; AInt g; AInt fm; AInt gm] => Ok (CallC2 f g (Some (fm, gm))) | _ => UB end) ]
  | M_W2 =>
      [ mkoverload [PInt; PInt] (fun l => match l with [AInt w; AInt f] => Ok (CallW2 (widen w) (widen f) None) | _ => UB end);
        mkoverload [PDouble; PDouble] (fun l => match l with [ADouble w; ADouble f] => Ok (CallW2 w f None) | _ => UB end);
        mkoverload [PDouble; PDouble; PInt]
          (fun l => match l with [ADouble w; ADouble f; AInt fm] => Ok (CallW2 w f (Some fm)) | _ => UB end) ]
  | M_W2c =>
      [ mkoverload [PInt; PInt; PInt]
          (fun l => match l with [AInt c; AInt ce; AInt f] => Ok (CallW2c c ce (widen f) None mode) | _ => UB end);
        mkoverload [PInt; PInt; PDouble]
          (fun l => match l with [AInt c; AInt ce; ADouble f] => Ok (CallW2c c ce f None mode) | _ => UB end);
        mkoverload [PInt; PInt; PDouble; PInt]
          (fun l => match l with [AInt c; AInt ce; ADouble f; AInt fm] => Ok (CallW2c c ce f (Some fm) mode) | _ => UB end) ]
  | M_L =>
      [ mkoverload [PInt] (fun l => match l with [AInt f] => Ok (CallL f mode) | _ => UB end) ]
  end.

Definition py_call (m : method) (args : list array) (mode : path_mode) : res call := dispatch (overloads m mode) args.

(** The methods of [Ensemble]. *)
Definition py_add (asrt : bool) (e : ens) (m : method) (args : list array) (mode : path_mode) : res ens :=
  c <- py_call m args mode ;; add asrt e c.

(** The wrappers (python/main.cpp:452-688); there is none for [mean]. *)
Definition py_single (asrt : bool) (roi : list Z) (per : bool) (m : method) (args : list array) (mode : path_mode) : res (list value) :=
  match m with
  | M_mean => Throw
  | _ => c <- py_call m args mode ;; single asrt roi per c
  end.

(** The constructor with its default arguments (python/main.cpp:229-234; in C++ the default of
    [variance] is [true], GooseEYE.h:1415). *)
Definition py_ensemble (asrt : bool) (roi : list Z) (periodic variance : option bool) : res ens :=
  ensemble asrt roi (match periodic with Some b => b | None => true end) (match variance with Some b => b | None => false end).
Definition cpp_ensemble (asrt : bool) (roi : list Z) (periodic variance : option bool) : res ens :=
  ensemble asrt roi (match periodic with Some b => b | None => true end) (match variance with Some b => b | None => true end).
