(** * SpecStructure: spectra of real samples *)

From Coq Require Import ZArith List Reals.
From Verif Require Import Base Structure.
Import ListNotations.
Open Scope Z_scope.

(** The sum of [f 0], ..., [f (n - 1)]. *)
Definition sum_below (n : Z) (f : Z -> R) : R := fold_right Rplus 0%R (map f (zrange 0 n)).

(** The squared modulus of the Fourier component of [u] with [k] waves in [n] points. *)
Definition power (n : Z) (u : Z -> R) (k : Z) : R :=
  (sum_below n (fun j => u j * cos (2 * PI * (IZR j * IZR k / IZR n))) ^ 2 +
   sum_below n (fun j => u j * sin (2 * PI * (IZR j * IZR k / IZR n))) ^ 2)%R.

(** In two dimensions, with [k] waves along the [n] rows and [l] along the [m] columns. *)
Definition power2 (n m : Z) (u : Z -> Z -> R) (k l : Z) : R :=
  (sum_below n (fun a => sum_below m (fun b =>
     u a b * cos (2 * PI * (IZR a * IZR k / IZR n + IZR b * IZR l / IZR m)))) ^ 2 +
   sum_below n (fun a => sum_below m (fun b =>
     u a b * sin (2 * PI * (IZR a * IZR k / IZR n + IZR b * IZR l / IZR m)))) ^ 2)%R.

(** The average of [f] over a list. *)
Definition average {A} (f : A -> R) (l : list A) : R :=
  (fold_right Rplus 0 (map f l) / INR (length l))%R.

(** [k] is the index of the frequency n/2, which has no opposite. *)
Definition nyquist (n k : Z) : Prop := 2 * k = n.

(** The index that stands for the opposite of frequency [k]. *)
Definition opposite (n k : Z) : Z := (- k) mod n.

(** [u'] is [u] moved cyclically by [t] points. *)
Definition rotated (n t : Z) (u u' : Z -> R) : Prop :=
  forall j, 0 <= j < n -> u' ((j + t) mod n) = u j.

Definition rotated2 (n m s t : Z) (u u' : Z -> Z -> R) : Prop :=
  forall a b, 0 <= a < n -> 0 <= b < m -> u' ((a + s) mod n) ((b + t) mod m) = u a b.

(** A structure that has no sample yet, whose shape may have been given already. *)
Definition fresh (shape : list Z) (start : option stat) : Prop :=
  start = None \/ exists st, allocate shape = Ok st /\ start = Some st.

(** Samples of [n] points (of [n] by [m] points), each with the uninitialised memory it is
    computed in. *)
Definition samples1 (n : Z) (l : list ((Z -> R) * (Z -> Z -> R))) :=
  map (fun s => (Data1 n (fst s), snd s)) l.
Definition samples2 (n m : Z) (l : list ((Z -> Z -> R) * (Z -> Z -> R))) :=
  map (fun s => (Data2 n m (fst s), snd s)) l.

(** The shape of a sample. *)
Definition shape_of (d : data) : list Z :=
  match d with Data1 n _ | IntData1 n _ => [n] | Data2 n m _ | IntData2 n m _ => [n; m] end.

(** A shape without empty axis, all axes even or all odd. *)
Definition usable (shape : list Z) : Prop :=
  Forall (fun n => 1 <= n) shape /\ forall a b, In a shape -> In b shape -> a mod 2 = b mod 2.

(** Samples that are arrays of integers, and the same values as floating point numbers. *)
Definition int_samples1 (n : Z) (l : list ((Z -> Z) * (Z -> Z -> R))) :=
  map (fun s => (IntData1 n (fst s), snd s)) l.
Definition int_samples2 (n m : Z) (l : list ((Z -> Z -> Z) * (Z -> Z -> R))) :=
  map (fun s => (IntData2 n m (fst s), snd s)) l.
Definition as_float1 (l : list ((Z -> Z) * (Z -> Z -> R))) : list ((Z -> R) * (Z -> Z -> R)) :=
  map (fun s => ((fun j => IZR (fst s j)), snd s)) l.
Definition as_float2 (l : list ((Z -> Z -> Z) * (Z -> Z -> R))) : list ((Z -> Z -> R) * (Z -> Z -> R)) :=
  map (fun s => ((fun a b => IZR (fst s a b)), snd s)) l.
