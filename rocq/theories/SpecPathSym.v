(** * SpecPathSym: mirroring, interchanging the axes, and reversing (what C101 means)

    Nothing here refers to the model. *)

From Coq Require Import ZArith QArith List.
From Verif Require Import Base.
Import ListNotations.
Open Scope Z_scope.

(** Multiply the coordinates by the signs [s]. *)
Definition mirror (s x : list Z) : list Z := map (fun ab => fst ab * snd ab) (combine s x).

(** Signs. *)
Definition signs (s : list Z) : Prop := Forall (fun v => v = 1 \/ v = -1) s.

(** The coordinates of [x] in the order [p]: coordinate [i] of the result is coordinate
    [p_i] of [x]. *)
Definition pick (p : list nat) (x : list Z) : list Z := map (fun i => nth i x 0) p.

(** The same outcome; the pixels of a path changed by [f]. *)
Definition each (f : list Z -> list Z) (r : res (list (list Z))) : res (list (list Z)) :=
  match r with Ok rows => Ok (map f rows) | Throw => Throw | UB => UB | NoFuel => NoFuel end.

(** Strictly increasing numbers between 0 and 1. *)
Fixpoint increasing (a : Q) (ts : list Q) : Prop :=
  match ts with [] => True | t :: ts' => (a < t <= 1)%Q /\ increasing t ts' end.
