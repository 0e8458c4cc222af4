(** * SpecMachine: words used by C144 *)

From Coq Require Import ZArith List Bool.
From Verif Require Import Base Path Double Ensemble EnsembleFloat EnsembleMachine.
Import ListNotations.
Open Scope Z_scope.

(** A sequence of calls. *)
Definition mrun (L : libm) (asrt : bool) (cs : list fcall) (e : fens) : res fens := foldM (madd L asrt) cs e.

(** How many pixels a region of interest may count along each axis. *)
Definition reach (mode : path_mode) : Z := match mode with Bresenham => 2 ^ 31 - 1 | actual | full => 1415 end.

Definition within_reach (roi : list Z) (c : fcall) : Prop :=
  match c with
  | FCallW2c _ _ _ _ mode | FCallL _ mode => Forall (fun n => n <= reach mode) roi
  | _ => True
  end.
