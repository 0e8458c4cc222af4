(** * SpecStructureFloat: transforms and structure factors that are right up to rounding *)

From Coq Require Import ZArith List Bool Reals.
From Flocq Require Import Core BinarySingleNaN.
From Verif Require Import Base Double Structure SpecStructure SpecStructureAll SpecError StructureFloat.
Import ListNotations.
Open Scope Z_scope.

(** [P] computes real parts of products as IEEE 754 arithmetic does, possibly fusing one product
    with the subtraction, as it likes for each pair of factors. *)
Definition product (P : fcomplex -> fcomplex -> double) : Prop :=
  forall x y, P x y = plain_product x y \/ P x y = fused_left x y \/ P x y = fused_right x y.

(** The double [x] is [r] up to [b]. *)
Definition right_up_to (b r : R) (x : double) : Prop := is_finite x = true /\ (Rabs (B2R x - r) <= b)%R.

(** [hat] is the Fourier transform of the sample [u], the real and the imaginary part of every
    component up to [d]. *)
Definition transform1 (d : R) (n : Z) (u : Z -> R) (hat : Z -> fcomplex) : Prop :=
  forall k, 0 <= k < n ->
    right_up_to d (sum_below n (fun j => u j * cos (2 * PI * (IZR j * IZR k / IZR n))))%R (fst (hat k)) /\
    right_up_to d (- sum_below n (fun j => u j * sin (2 * PI * (IZR j * IZR k / IZR n))))%R (snd (hat k)).
Definition transform2 (d : R) (n m : Z) (u : Z -> Z -> R) (hat : Z -> Z -> fcomplex) : Prop :=
  forall k l, 0 <= k < n -> 0 <= l < m ->
    right_up_to d (cosines n m u k l) (fst (hat k l)) /\ right_up_to d (- sines n m u k l)%R (snd (hat k l)).

(** The absolute values of the sample and the error of its transform add up to at most [A], which
    is between 2^-400 and 2^390. *)
Definition sized1 (A d : R) (n : Z) (u : Z -> R) : Prop :=
  (bpow radix2 (-400) <= A <= bpow radix2 390)%R /\ (0 <= d)%R /\ (sum_below n (fun j => Rabs (u j)) + d <= A)%R.
Definition sized2 (A d : R) (n m : Z) (u : Z -> Z -> R) : Prop :=
  (bpow radix2 (-400) <= A <= bpow radix2 390)%R /\ (0 <= d)%R /\ (sum_below n (fun a => sum_below m (fun b => Rabs (u a b))) + d <= A)%R.

(** Samples: the values, their transform, and uninitialised memory. *)
Definition fsamples1 (dt : dtype) (n : Z) (l : list ((Z -> R) * (Z -> fcomplex) * (Z -> double))) : list fdata :=
  map (fun s => FSample1 dt n (snd (fst s)) (snd s)) l.
Definition fsamples2 (dt : dtype) (n m : Z) (l : list ((Z -> Z -> R) * (Z -> Z -> fcomplex) * (Z -> Z -> double))) : list fdata :=
  map (fun s => FSample2 dt n m (snd (fst s)) (snd s)) l.

(** No sample yet; the shape may have been given already. *)
Definition ffresh_structure (shape : list Z) (start : option fstat) : Prop :=
  start = None \/ exists st, fallocate shape = Ok st /\ start = Some st.

(** How far the average of [N] structure factors of samples of [size] points may be off: the
    error [d] of the transforms, and about [9 N] roundings. *)
Definition structure_error (A d : R) (size : Z) (N : nat) : R :=
  ((4 * A * d + (9 * INR N + 33) * unit * A ^ 2) / IZR size)%R.

(** [hat] is the transform of a real sample as far as its symmetry goes: opposite components are
    each other's complex conjugates. *)
Definition conjugates1 (n : Z) (hat : Z -> fcomplex) : Prop :=
  forall k, 0 <= k < n -> B2R (fst (hat (opposite n k))) = B2R (fst (hat k)) /\ B2R (snd (hat (opposite n k))) = (- B2R (snd (hat k)))%R.
