(** * SpecRow: stretches of foreground in an image of one axis *)

From Coq Require Import ZArith List Bool.
From Verif Require Import Base.
Open Scope Z_scope.

(** A stretch of foreground begins at pixel [x]: it is not background, and the pixel before it is,
    or there is none. *)
Definition begins (img : list Z) (x : Z) : bool :=
  negb (zn img x =? 0) && ((x =? 0) || (zn img (x - 1) =? 0)).

(** The number of stretches that begin at pixel [p] or before it. *)
Definition stretches (img : list Z) (p : Z) : Z := lenZ (filter (begins img) (zrange 0 (p + 1))).

(** No background from pixel [p] up to the last one. *)
Definition to_the_end (img : list Z) (p : Z) : bool :=
  forallb (fun x => negb (zn img x =? 0)) (zrange p (lenZ img)).

(** The label of pixel [p]: the number of its stretch, counted from the left.  If the image is
    periodic, a stretch that runs up to the last pixel goes on at the first one. *)
Definition row_label (per : bool) (img : list Z) (p : Z) : Z :=
  if zn img p =? 0 then 0
  else if per && negb (zn img 0 =? 0) && to_the_end img p then 1
  else stretches img p.

(** Pairs of neighbouring pixels that are both foreground. *)
Definition bonds (per : bool) (img : list Z) : Z :=
  lenZ (filter (fun x => negb (zn img x =? 0) && negb (zn img ((x + 1) mod lenZ img) =? 0))
               (zrange 0 (if per then lenZ img else lenZ img - 1))).

(** Pixels of the foreground. *)
Definition filled (img : list Z) : Z := lenZ (filter (fun x => negb (zn img x =? 0)) (zrange 0 (lenZ img))).
