(** * SpecTile: an image repeated along its axes *)

From Coq Require Import ZArith QArith Qcanon List Bool.
From Verif Require Import Base SpecCluster Path Ensemble SpecEnsemble.
Import ListNotations.
Open Scope Z_scope.

(** The shape of an image repeated [times_i] times along axis [i] ([np.tile]). *)
Definition tiled (times shape : list Z) : list Z := map (fun tn => fst tn * snd tn) (combine times shape).

(** Pixel [p'] of the repeated image is a copy of pixel [p]. *)
Definition copy_of (times shape : list Z) (p p' : Z) : Prop :=
  pixel shape p /\ pixel (tiled times shape) p' /\
  coords shape p = map (fun xn => fst xn mod snd xn) (combine (coords (tiled times shape) p') shape).

(** [m] times the sums, the same result. *)
Definition multiplied (m : Z) (e : ens) (e' : ens) (r : Z) : Prop :=
  first_at e' r = (zq m * first_at e r)%Qc /\ second_at e' r = (zq m * second_at e r)%Qc /\ norm_at e' r = (zq m * norm_at e r)%Qc /\
  result_at e' r = result_at e r.

(** The weights, if any, are not negative. *)
Definition not_negative (c : call) : Prop :=
  match c with CallW2 w _ _ => Forall (fun x => 0 <= x)%Qc (i_vals w) | _ => True end.
