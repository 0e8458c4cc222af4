(** * SpecPy: what a Python call asks for *)

From Coq Require Import ZArith QArith Qcanon List Bool.
From Verif Require Import Base Path Ensemble EnsemblePy.
Import ListNotations.
Open Scope Z_scope.

(** The image that an array holds. *)
Definition image (a : array) : img Qc := mkimg (a_shape a) (a_vals a).

(** All values are integers in the range of [int], namely those of [i]. *)
Definition holds (a : array) (i : img Z) : Prop :=
  i_shape i = a_shape a /\ a_vals a = map zq (i_vals i) /\ Forall (fun z => - 2 ^ 31 <= z < 2 ^ 31) (i_vals i).

(** The statistic [c] of the images given is what calling the method with these arrays asks for:
    images as they are; labels and masks are integers. *)
Inductive asked : method -> list array -> path_mode -> call -> Prop :=
| asked_mean f mode : asked M_mean [f] mode (Mean (image f))
| asked_mean_mask f fm i mode : holds fm i -> asked M_mean [f; fm] mode (MeanMasked (image f) i)
| asked_S2 f g mode : asked M_S2 [f; g] mode (CallS2 (image f) (image g) None)
| asked_S2_masks f g fm gm i j mode : holds fm i -> holds gm j ->
    asked M_S2 [f; g; fm; gm] mode (CallS2 (image f) (image g) (Some (i, j)))
| asked_hh f mode : asked M_heightheight [f] mode (CallHH (image f) None)
| asked_hh_mask f fm i mode : holds fm i -> asked M_heightheight [f; fm] mode (CallHH (image f) (Some i))
| asked_C2 f g k l mode : holds f k -> holds g l -> asked M_C2 [f; g] mode (CallC2 k l None)
| asked_C2_masks f g fm gm k l i j mode : holds f k -> holds g l -> holds fm i -> holds gm j ->
    asked M_C2 [f; g; fm; gm] mode (CallC2 k l (Some (i, j)))
| asked_W2 w f mode : asked M_W2 [w; f] mode (CallW2 (image w) (image f) None)
| asked_W2_mask w f fm i mode : holds fm i -> asked M_W2 [w; f; fm] mode (CallW2 (image w) (image f) (Some i))
| asked_W2c c ce f k l mode : holds c k -> holds ce l -> asked M_W2c [c; ce; f] mode (CallW2c k l (image f) None mode)
| asked_W2c_mask c ce f fm k l i mode : holds c k -> holds ce l -> holds fm i ->
    asked M_W2c [c; ce; f; fm] mode (CallW2c k l (image f) (Some i) mode)
| asked_L f k mode : holds f k -> asked M_L [f] mode (CallL k mode).

(** Every value rounded towards zero. *)
Definition toward_zero (q : Qc) (z : Z) : Prop :=
  ((0 <= q)%Qc -> (zq z <= q)%Qc /\ (q < zq (z + 1))%Qc) /\ ((q <= 0)%Qc -> (q <= zq z)%Qc /\ (zq (z - 1) < q)%Qc).
Definition rounded (a : array) (i : img Qc) : Prop :=
  i_shape i = a_shape a /\ exists l, i_vals i = map zq l /\ Forall2 toward_zero (a_vals a) l.

(** Arguments that are known to be passed on as they are. *)
Definition both_double (f g : array) : Prop := a_dtype f = Float64 /\ a_dtype g = Float64.
Definition faithful (m : method) (args : list array) : Prop :=
  match m, args with
  | M_S2, [f; g] | M_W2, [f; g] => both_double f g \/ ((exists i, holds f i) /\ exists j, holds g j)
  | M_W2c, [c; ce; f] => (a_dtype c = Int32 /\ a_dtype ce = Int32 /\ a_dtype f = Float64) \/ exists i, holds f i
  | _, _ => True
  end.
