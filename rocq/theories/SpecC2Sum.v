(** * SpecC2Sum: sums over the labels of an image *)

From Coq Require Import ZArith List.
From Verif Require Import Base Labels SpecLabels.
Open Scope Z_scope.

(** The sum over the labels, but the background, of the square of the number of pixels that
    [labels_sizes] reports. *)
Definition squared_sizes (f : list Z) : Z :=
  zsum (map (fun kc => if fst kc =? 0 then 0 else snd kc * snd kc) (labels_sizes f)).

(** The sum over the labels, but the background, of the number of pixels with that label in [f]
    times the number in [g]. *)
Definition joint_sizes (f g : list Z) : Z :=
  zsum (map (fun kc => if fst kc =? 0 then 0 else snd kc * occurrences g (fst kc)) (labels_sizes f)).
