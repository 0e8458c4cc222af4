(** * StructureExn: [Structure.add_sample] as a Python user sees it, who may catch the exception
    and go on with the object (python/GooseEYE/__init__.py:157-182, 243-277)

    [Structure.add_sample] gives the outcome of one call; here also the object that is left behind
    by a call that raises.  The base class [enstat.static] by its contract: [_allocate] sets
    [first] and [norm] to zeros of the shape; [add_sample] calls [_allocate] if they are not set
    yet, and raises, before it changes anything, if the shape is not that of [first]. *)

From Coq Require Import ZArith List Bool Reals.
From Verif Require Import Base Structure.
Import ListNotations.
Open Scope Z_scope.

(** [super()._allocate(shape, dtype)] (__init__.py:162) *)
Definition base_allocate (shape : list Z) : stat := mkstat shape (fun _ => Some 0%R) 0.

(** [_allocate] (__init__.py:157-182): the object left behind, and if an exception is raised.  The
    base class has allocated before the two assertions (162-164). *)
Definition allocate_x (shape : list Z) : stat * bool :=
  match allocate shape with
  | Ok st => (st, false)
  | _ => (base_allocate shape, true)
  end.

(** [super().add_sample] (__init__.py:277) *)
Definition accumulate_x (st : option stat) (shape : list Z) (x : list Z -> R) : option stat * bool :=
  let '(s, raised) := match st with Some s => (s, false) | None => allocate_x shape end in
  if raised then (Some s, true)
  else match accumulate (Some s) shape x with
       | Ok s' => (Some s', false)
       | _ => (Some s, true)
       end.

(** [add_sample] (__init__.py:243-277): what is raised before line 277 leaves the object alone. *)
Definition offer (st : option stat) (d : data) (junk : Z -> Z -> R) : option stat * bool :=
  match d with
  | Data1 n u =>
      match sample1 Float n u (junk 0) with
      | Ok r => accumulate_x st [n] (fun i => vat r (nth 0 i 0))
      | _ => (st, true)
      end
  | Data2 n m u =>
      match sample2 Float n m u junk with
      | Ok r => accumulate_x st [n; m] (fun i => mat_at r (nth 0 i 0) (nth 1 i 0))
      | _ => (st, true)
      end
  | IntData1 n u =>
      match sample1 Integer n (fun j => IZR (u j)) (junk 0) with
      | Ok r => accumulate_x st [n] (fun i => vat r (nth 0 i 0))
      | _ => (st, true)
      end
  | IntData2 n m u =>
      match sample2 Integer n m (fun a b => IZR (u a b)) junk with
      | Ok r => accumulate_x st [n; m] (fun i => mat_at r (nth 0 i 0) (nth 1 i 0))
      | _ => (st, true)
      end
  end.

(** Samples offered one after the other, going on after an exception. *)
Definition offers (st : option stat) (l : list (data * (Z -> Z -> R))) : option stat :=
  fold_left (fun st d => fst (offer st (fst d) (snd d))) l st.
