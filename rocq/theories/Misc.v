(** * Misc: model of the version string, of [repr] and of the Python labeller *)

From Coq Require Import ZArith List Bool String Ascii DecimalString.
From Verif Require Import Base Cluster.
Import ListNotations.
Open Scope Z_scope.

(** ** version (version.hpp:16-28) *)

(** [std::remove(begin, end, c)]: characters that are kept move to the front; the position
    behind the last of them is returned together with the buffer. *)
Definition std_remove (c : ascii) (s : list ascii) : res (list ascii * Z) :=
  foldM (fun (a : list ascii * Z) r =>
           x <- vget (fst a) r ;;
           if Ascii.eqb x c then Ok a
           else b <- vset (fst a) (snd a) x ;; Ok (b, snd a + 1))
        (zrange 0 (lenZ s)) (s, 0).

(** [detail::unquote] (version.hpp:16-21); [erase] drops the tail. *)
Definition unquote (s : list ascii) : res (list ascii) :=
  a <- std_remove """"%char s ;; Ok (firstn (Z.to_nat (snd a)) (fst a)).

(** [version()] (version.hpp:25-28), for a given value of the macro. *)
Definition version (configured : string) : res (list ascii) := unquote (list_ascii_of_string configured).

(** ** repr (GooseEYE.h:23-49, 1135-1139) *)

(** [std::to_string] of a [size_t]. *)
Definition digits (x : Z) : string := NilZero.string_of_uint (N.to_uint (Z.to_N x)).

(** [detail::shape_to_string] (GooseEYE.h:37-49); [shape.size() - 1] is only reached with a
    non-empty shape. *)
Definition shape_to_string (shape : list Z) : res string :=
  r <- foldM (fun ret i =>
          n <- vget shape i ;;
          Ok (ret ++ digits n ++ (if (i <? lenZ shape - 1)%Z then ", " else ""))%string)
        (zrange 0 (lenZ shape)) "["%string ;;
  Ok (r ++ "]")%string.

(** [ClusterLabeller::repr] (GooseEYE.h:1135-1139), [python]: compiled for Python (23-31). *)
Definition repr (python : bool) (shape : list Z) : res string :=
  s <- shape_to_string shape ;;
  Ok ("GooseEYE" ++ (if python then "." else "::") ++ "ClusterLabeller" ++ digits (lenZ shape) ++ " " ++ s)%string.

(** ** The Python class (python/main.cpp:28-69, 152-155) *)

(** The name under which a class is registered (main.cpp:31-35). *)
Definition class_name (dim : Z) (per : bool) : string :=
  ("ClusterLabeller" ++ digits dim ++ (if per then "p" else ""))%string.

(** The registered classes (main.cpp:152-155). *)
Definition registered : list (string * (Z * bool)) :=
  map (fun d => (class_name d true, (d, true))) (zrange 1 4) ++
  map (fun d => (class_name d false, (d, false))) (zrange 1 4).

(** Looking up a name of the module. *)
Definition lookup (name : string) : res (Z * bool) :=
  match find (fun c => String.eqb (fst c) name) registered with
  | Some c => Ok (snd c)
  | None => Throw
  end.

(** Conversion of the entries of a shape to [size_t]: Python numbers out of range do not load. *)
Definition sizes_load (shape : list Z) : bool := forallb (fun n => (0 <=? n) && (n <? 2 ^ 64)) shape.

(** Constructing a class (main.cpp:37-42): the shape must convert to [std::array] of the rank,
    and the kernel, if there is one, to a tensor of that rank. *)
Definition construct (asrt : bool) (cls : Z * bool) (shape : list Z) (kernel : option (list Z * list Z)) : res cfg :=
  if (lenZ shape =? fst cls) && sizes_load shape then
    match kernel with
    | None => make_default shape (snd cls)
    | Some (ks, kv) => if lenZ ks =? fst cls then make_kernel asrt shape (snd cls) ks kv else Throw
    end
  else Throw.

(** [ClusterLabeller(shape, periodic, **kwargs)] (python/GooseEYE/__init__.py:11-31). *)
Definition py_labeller (asrt : bool) (shape : list Z) (per : bool) (kernel : option (list Z * list Z)) : res cfg :=
  if lenZ shape =? 1 then
    cls <- lookup (if per then "ClusterLabeller1p" else "ClusterLabeller1") ;; construct asrt cls shape kernel
  else if lenZ shape =? 2 then
    cls <- lookup (if per then "ClusterLabeller2p" else "ClusterLabeller2") ;; construct asrt cls shape kernel
  else if lenZ shape =? 3 then
    cls <- lookup (if per then "ClusterLabeller3p" else "ClusterLabeller3") ;; construct asrt cls shape kernel
  else Throw.

(** What a property returns to Python. *)
Inductive pyvalue := PyInt (n : Z) | PyList (l : list Z).

(** The C++ members [shape] and [size] (GooseEYE.h:1145-1157). *)
Definition cpp_shape (g : cfg) : list Z := g_shape g.
Definition cpp_size (s : st) : Z := lenZ (c_label s).

(** The Python properties (main.cpp:45-46): both are bound to [shape]. *)
Definition py_shape (g : cfg) (s : st) : pyvalue := PyList (cpp_shape g).
Definition py_size (g : cfg) (s : st) : pyvalue := PyList (cpp_shape g).
