(** * SpecChord: chords of a phase along an axis *)

From Coq Require Import ZArith List Bool.
From Verif Require Import Base SpecEnsemble SpecAxis.
Open Scope Z_scope.

(** [p] is the first of a run of exactly [t] pixels of the phase along axis [a]: the pixel before
    and the one behind are not in the phase, or there is none. *)
Definition chord (per : bool) (shape f : list Z) (a : nat) (t p : Z) : bool :=
  forallb (fun i => in_phase per shape f p (along (length shape) a i)) (zrange 0 t) &&
  negb (in_phase per shape f p (along (length shape) a t)) &&
  negb (in_phase per shape f p (along (length shape) a (-1))).

(** The number of chords of [t] pixels along axis [a]. *)
Definition chords (per : bool) (shape f : list Z) (a : nat) (t : Z) : Z :=
  lenZ (filter (chord per shape f a t) (pixels shape)).

(** From [p] along axis [a] exactly [t] pixels are in the phase before it ends. *)
Definition exactly (per : bool) (shape f : list Z) (a : nat) (t p : Z) : bool :=
  forallb (fun i => in_phase per shape f p (along (length shape) a i)) (zrange 0 t) &&
  negb (in_phase per shape f p (along (length shape) a t)).
