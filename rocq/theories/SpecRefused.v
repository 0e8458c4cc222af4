(** * SpecRefused: sequences of calls in which exceptions are caught (C116) *)

From Coq Require Import ZArith List.
From Verif Require Import Base Path Ensemble EnsemblePy Refused.
Import ListNotations.

(** Calls made one after the other on one object, going on after an exception: the object in the
    end, and for each call what it returned ([None] if it threw).  Nothing is said if the
    behaviour of a call is undefined. *)
Fixpoint session {S C B} (method : C -> act S B) (calls : list C) (s : S) : option (S * list (option B)) :=
  match calls with
  | [] => Some (s, [])
  | c :: rest =>
      let (s', r) := method c s in
      match r with
      | Ok b => match session method rest s' with Some (t, o) => Some (t, Some b :: o) | None => None end
      | Throw => match session method rest s' with Some (t, o) => Some (t, None :: o) | None => None end
      | _ => None
      end
  end.

(** The calls that were accepted, and what these returned. *)
Fixpoint accepted {C B} (calls : list C) (o : list (option B)) : list C :=
  match calls, o with
  | c :: calls', Some _ :: o' => c :: accepted calls' o'
  | _ :: calls', None :: o' => accepted calls' o'
  | _, _ => []
  end.
Fixpoint returned {B} (o : list (option B)) : list B :=
  match o with
  | [] => []
  | Some b :: o' => b :: returned o'
  | None :: o' => returned o'
  end.

(** Assertions are enabled, or the call is not [mean] with a mask of another shape than the image. *)
Definition mask_fits (asrt : bool) (c : call) : Prop :=
  match c with MeanMasked f m => asrt = true \/ i_shape m = i_shape f | _ => True end.
Definition py_mask_fits (asrt : bool) (c : method * list array * path_mode) : Prop :=
  match c with
  | (M_mean, args, _) => asrt = true \/ forall a b, In a args -> In b args -> a_shape a = a_shape b
  | _ => True
  end.
