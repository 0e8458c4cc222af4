(** * SpecBindings: what Python calls outside [Ensemble] ask for *)

From Coq Require Import ZArith QArith Qcanon List Bool String.
From Verif Require Import Base Cluster SpecCluster Dilate Ensemble EnsemblePy BindingsPy.
Import ListNotations.
Open Scope Z_scope.

(** The array holds the integers [i], all at least [lo] and below [hi], whatever its dtype. *)
Definition integers (lo hi : Z) (a : array) (i : img Z) : Prop :=
  i_shape i = a_shape a /\ a_vals a = map zq (i_vals i) /\ Forall (fun z => lo <= z < hi) (i_vals i).
(** A list of counts or of positions. *)
Definition counts (a : array) (l : list Z) : Prop :=
  (exists n, a_shape a = [n]) /\ a_vals a = map zq l /\ Forall (fun z => 0 <= z < 2 ^ 64) l.


(** As many values as the shape says. *)
Definition complete (a : array) : Prop := lenZ (a_vals a) = zprod (a_shape a).
Definition value_at (a : array) (p : Z) : Qc := nth (Z.to_nat p) (a_vals a) 0%Qc.
Definition between (lo hi : Z) (a : array) : Prop := Forall (fun q => (zq lo <= q)%Qc /\ (q < zq hi)%Qc) (a_vals a).

(** The same call of the labeller in C++. *)
Inductive same_op : py_op -> op -> Prop :=
| same_image a i : integers (- 2 ^ 31) (2 ^ 31) a i -> same_op (PyAddImage a) (AddImage (i_shape i) (i_vals i))
| same_points a l : counts a l -> same_op (PyAddPoints a) (AddPoints l)
| same_sequence a l : counts a l -> same_op (PyAddSequence a) (AddSequence l)
| same_prune : same_op PyPrune Prune
| same_reset : same_op PyReset Reset.

(** Any call at all: images of any shape and dtype, with values in the range of [int]; arrays of
    indices of any shape and sign. *)
Definition any_op (o : py_op) : Prop :=
  match o with
  | PyAddImage a => complete a /\ between (- 2 ^ 31) (2 ^ 31) a
  | PyAddPoints a | PyAddSequence a => a_dtype a <> Float32 /\ a_dtype a <> Float64
  | _ => True
  end.

(** A call of [dilate]: an image; a kernel, or the default one; a number of iterations, one per
    label, or the default (once); periodic or not, or the default (periodic). *)
Inductive iterations := Times (n : Z) | PerLabel (a : array).
Record request := mkrequest { r_image : array; r_kernel : option array; r_iterations : option iterations; r_periodic : option bool }.

Definition valid_iterations (it : iterations) : Prop :=
  match it with Times n => 0 <= n < 2 ^ 64 | PerLabel a => exists l, counts a l end.
Definition valid_request (r : request) : Prop :=
  (exists i, integers (- 2 ^ 31) (2 ^ 31) (r_image r) i) /\
  match r_kernel r with Some k => exists i, integers (- 2 ^ 31) (2 ^ 31) k i | None => True end /\
  match r_iterations r with Some it => valid_iterations it | None => True end.

(** The same in C++. *)
Definition answers (asrt : bool) (r : request) (out : res (list Z)) : Prop :=
  forall f, integers (- 2 ^ 31) (2 ^ 31) (r_image r) f ->
  let per := match r_periodic r with Some b => b | None => true end in
  match r_kernel r, r_iterations r with
  | None, None => out = dilate_default_n asrt (i_shape f) (i_vals f) 1 per
  | None, Some (Times n) => out = dilate_default_n asrt (i_shape f) (i_vals f) n per
  | None, Some (PerLabel a) => forall l, counts a l -> out = dilate_default asrt (i_shape f) (i_vals f) l per
  | Some ka, None => forall k, integers (- 2 ^ 31) (2 ^ 31) ka k ->
      out = dilate_n asrt (i_shape f) (i_vals f) (i_shape k) (i_vals k) 1 per
  | Some ka, Some (Times n) => forall k, integers (- 2 ^ 31) (2 ^ 31) ka k ->
      out = dilate_n asrt (i_shape f) (i_vals f) (i_shape k) (i_vals k) n per
  | Some ka, Some (PerLabel a) => forall k l, integers (- 2 ^ 31) (2 ^ 31) ka k -> counts a l ->
      out = dilate asrt (i_shape f) (i_vals f) (i_shape k) (i_vals k) l per
  end.

Local Open Scope string_scope.

Definition iterations_arg (it : iterations) : pyarg := match it with Times n => PyNum n | PerLabel a => PyArr a end.
Definition keyword {A} (name : string) (f : A -> pyarg) (o : option A) : list (string * pyarg) :=
  match o with Some x => [(name, f x)] | None => [] end.
(** The named arguments that make the request, besides the image. *)
Definition keywords (r : request) : list (string * pyarg) :=
  keyword "kernel" PyArr (r_kernel r) ++ keyword "iterations" iterations_arg (r_iterations r) ++ keyword "periodic" PyBool (r_periodic r).

(** The positional arguments that make the request: an argument can be left out only if the ones
    behind it are; the kernel can always be left out. *)
Definition positional {A} (f : A -> pyarg) (o : option A) : list pyarg := match o with Some x => [f x] | None => [] end.
Definition positionals (r : request) : list pyarg :=
  (PyArr (r_image r) :: positional PyArr (r_kernel r) ++ positional iterations_arg (r_iterations r) ++ positional PyBool (r_periodic r))%list.
Definition in_order (r : request) : Prop := r_iterations r = None -> r_periodic r = None.

(** The dtypes of the C++ signature. *)
Definition native (r : request) : Prop :=
  a_dtype (r_image r) = Int32 /\
  match r_kernel r with Some k => a_dtype k = Int32 | None => True end /\
  match r_iterations r with Some (PerLabel a) => a_dtype a = UInt64 | _ => True end.

(** Calls that ask for nothing: more than four arguments by position; a name that is not one of
    the four, or that is given twice; no image; iterations that are neither a number at least
    zero nor a list. *)
Inductive misused (pos : list pyarg) (kw : list (string * pyarg)) : Prop :=
| misused_many : (4 < List.length pos)%nat -> misused pos kw
| misused_name k x : In (k, x) kw -> ~ In k ["f"; "kernel"; "iterations"; "periodic"] -> misused pos kw
| misused_twice x : pos <> [] -> In ("f", x) kw -> misused pos kw
| misused_no_image : pos = [] -> (forall x, ~ In ("f", x) kw) -> misused pos kw
| misused_negative n : In ("iterations", PyNum n) kw -> n < 0 -> misused pos kw
| misused_table a : In ("iterations", PyArr a) kw -> lenZ (a_shape a) <> 1 -> misused pos kw.
