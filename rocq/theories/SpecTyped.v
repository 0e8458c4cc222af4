(** * SpecTyped: values that a type can hold *)

From Coq Require Import ZArith List.
From Verif Require Import Base LabelsTyped.
Import ListNotations.
Open Scope Z_scope.

(** [v] can be represented in the type. *)
Definition fits (t : ity) (v : Z) : Prop :=
  match t with
  | I8 => -128 <= v <= 127
  | I16 => -32768 <= v <= 32767
  | I32 => - 2 ^ 31 <= v < 2 ^ 31
  | I64 => - 2 ^ 63 <= v < 2 ^ 63
  | U8 => 0 <= v <= 255
  | U16 => 0 <= v <= 65535
  | U32 => 0 <= v < 2 ^ 32
  | U64 => 0 <= v < 2 ^ 64
  end.

(** An increment beyond the largest value starts again at the smallest one (and is not
    undefined). *)
Definition wraps (t : ity) : Prop := match t with I32 | I64 => False | _ => True end.

(** [v] is [w] up to a multiple of the number of values of the type. *)
Definition same_modulo (t : ity) (v w : Z) : Prop :=
  exists k, v = w + k * match t with I8 | U8 => 2 ^ 8 | I16 | U16 => 2 ^ 16 | I32 | U32 => 2 ^ 32 | I64 | U64 => 2 ^ 64 end.
