(** * StructureVar: the second moment and the variance of [Structure]
    (python/GooseEYE/__init__.py:34-277)

    On top of [Structure]: the array [second] of the base class [enstat.static], allocated if
    [compute_variance] (153-155).  The base class adds the square of every sample to [second];
    [variance()] is [(second / norm - mean^2) * norm / (norm - 1)], NaN for fewer than two
    samples, and raises if the variance was not asked for. *)

From Coq Require Import ZArith List Bool Reals.
From Verif Require Import Base Structure.
Import ListNotations.
Open Scope Z_scope.

(** [shape], [first], [norm], and [second] ([None]: not allocated). *)
Record vstat := mkvstat { vs_base : stat; vs_second : option (list Z -> option R) }.

(** The entries of [second] right after [_allocate] (__init__.py:167-180). *)
Definition second0 (shape : list Z) (i : list Z) : option R :=
  match shape with
  | [n] =>
      if n mod 2 =? 0
      then if nth 0 i 0 =? n / 2 then None else Some 0%R
      else Some 0%R
  | [n; m] =>
      if n mod 2 =? 0
      then if (nth 0 i 0 =? n / 2) || (nth 1 i 0 =? m / 2) then None else Some 0%R
      else Some 0%R
  | _ => Some 0%R
  end.

(** [_allocate] (__init__.py:157-182) *)
Definition vallocate (cv : bool) (shape : list Z) : res vstat :=
  base <- allocate shape ;;
  Ok (mkvstat base (if cv then Some (second0 shape) else None)).

(** [super().add_sample] (__init__.py:277) *)
Definition vaccumulate (cv : bool) (st : option vstat) (shape : list Z) (x : list Z -> R) : res vstat :=
  st <- match st with Some st => Ok st | None => vallocate cv shape end ;;
  base <- accumulate (Some (vs_base st)) shape x ;;
  Ok (mkvstat base
    (match vs_second st with
     | Some g => Some (fun i => match g i with Some y => Some (y + x i * x i)%R | None => None end)
     | None => None
     end)).

(** [add_sample] (__init__.py:243-277) *)
Definition vadd_sample (cv : bool) (st : option vstat) (d : data) (junk : Z -> Z -> R) : res vstat :=
  match d with
  | Data1 n u =>
      r <- sample1 Float n u (junk 0) ;;
      vaccumulate cv st [n] (fun i => vat r (nth 0 i 0))
  | Data2 n m u =>
      r <- sample2 Float n m u junk ;;
      vaccumulate cv st [n; m] (fun i => mat_at r (nth 0 i 0) (nth 1 i 0))
  | IntData1 n u =>
      r <- sample1 Integer n (fun j => IZR (u j)) (junk 0) ;;
      vaccumulate cv st [n] (fun i => vat r (nth 0 i 0))
  | IntData2 n m u =>
      r <- sample2 Integer n m (fun a b => IZR (u a b)) junk ;;
      vaccumulate cv st [n; m] (fun i => mat_at r (nth 0 i 0) (nth 1 i 0))
  end.

Definition vadd_samples (cv : bool) (st : option vstat) (l : list (data * (Z -> Z -> R))) : res (option vstat) :=
  foldM (fun st d => st' <- vadd_sample cv st (fst d) (snd d) ;; Ok (Some st')) l st.

(** [mean()] and [variance()] of [enstat.static] *)
Definition vmean (st : vstat) (i : list Z) : option R := mean (vs_base st) i.

Definition variance (st : vstat) (i : list Z) : res (option R) :=
  match vs_second st with
  | None => Throw
  | Some g =>
      let n := st_norm (vs_base st) in
      if n <? 2 then Ok None
      else match g i, vmean st i with
           | Some y, Some m => Ok (Some ((y / IZR n - m * m) * (IZR n / (IZR n - 1)))%R)
           | _, _ => Ok None
           end
  end.
