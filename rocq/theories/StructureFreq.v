(** * StructureFreq: the frequencies of [Structure] (python/GooseEYE/__init__.py:184-241) once
    more, now with floating point numbers as IEEE 754 numbers

    Structure.v models the same code with real numbers. *)

From Coq Require Import ZArith List Bool.
From Flocq Require Import Core BinarySingleNaN.
From Verif Require Import Base Double Structure StructureFloat.
Import ListNotations.
Open Scope Z_scope.

(** The integers in [np.fft.fftfreq(n)]: [0 .. (n-1)//2], then [-(n//2) .. -1]. *)
Definition freq_index (n k : Z) : Z :=
  if k <? (n - 1) / 2 + 1 then k else k - ((n - 1) / 2 + 1) - n / 2.

(** [np.fft.fftfreq(n)] at index [k]: the integers times [val = 1.0 / (n * d)], with [d = 1.0]. *)
Definition ffreq (n k : Z) : double := dtimes (dz (freq_index n k)) (ddiv done (dz n)).

(** [q(axis)] (__init__.py:184-206) *)
Definition fq (st : fstat) (axis : option Z) : res (list Z -> double) :=
  match fst_shape st with
  | [n] => Ok (fun i => ffreq n (nth 0 i 0))
  | [n; m] =>
      match axis with
      | Some 0 => Ok (fun i => ffreq n (nth 0 i 0))
      | Some 1 => Ok (fun i => ffreq m (nth 1 i 0))
      | _ => Throw
      end
  | _ => Throw
  end.

(** [np.sqrt]: that of IEEE 754, correctly rounded. *)
Definition np_sqrt (x : double) : double := @Bsqrt 53 1024 precision exponent mode_NE x.

(** [x**2] (__init__.py:239): NumPy squares by [x * x]. *)
Definition np_square (x : double) : double := dtimes x x.

(** [qnorm] (__init__.py:208-241): its shape and entries. *)
Definition fqnorm (st : fstat) : res (list Z * (list Z -> double)) :=
  match fst_shape st with
  | [n] => Ok ([Z.min n (stop_of n)], fun i => Babs (ffreq n (nth 0 i 0)))
  | [n; m] => Ok ([Z.min n (stop_of n); Z.min m (stop_of m)],
      fun i => np_sqrt (dplus (np_square (ffreq n (nth 0 i 0))) (np_square (ffreq m (nth 1 i 0)))))
  | _ => Throw
  end.
