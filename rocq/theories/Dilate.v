(** * Dilate: model of [dilate] (GooseEYE.h:209-419) *)

From Coq Require Import ZArith List Bool.
From Verif Require Import Base Cluster Kernel Array3.
Import ListNotations.
Open Scope Z_scope.

(** Position along axis [ax], and the position displaced by [k] along [ax]. *)
Definition coord (ax : nat) (h i j : Z) : Z :=
  match ax with O => h | S O => i | _ => j end.

Definition at_shift (ax : nat) (k : Z) (a : arr Z) (h i j : Z) : Z :=
  match ax with
  | O => at3 0 a (h + k) i j
  | S O => at3 0 a h (i + k) j
  | _ => at3 0 a h i (j + k)
  end.

Definition dim (ax : nat) (a : arr Z) : Z :=
  match ax with O => d0 a | S O => d1 a | _ => d2 a end.

(** [target = xt::where(xt::not_equal(source, 0), source, target)] for the slabs
    [target = range(t, t + len)] and [source = range(s, s + len)] of axis [ax]
    (GooseEYE.h:237, 268).  The right-hand side is evaluated into a temporary first. *)
Definition copy_slab (ax : nat) (t s len : Z) (a : arr Z) : res (arr Z) :=
  if (0 <=? len) && (0 <=? t) && (t + len <=? dim ax a) && (0 <=? s) && (s + len <=? dim ax a)
  then Ok (tab (d0 a) (d1 a) (d2 a) (fun h i j =>
         let x := coord ax h i j in
         let old := at3 0 a h i j in
         if (t <=? x) && (x <? t + len)
         then let v := at_shift ax (s - t) a h i j in if v =? 0 then old else v
         else old))
  else UB.

Definition pad_of (P : pads) (ax : nat) : Z * Z :=
  let '(a, b, c) := P in match ax with O => a | S O => b | _ => c end.

(** [detail::periodic_copy_below_to_above] (GooseEYE.h:212-241). *)
Definition below_to_above (P : pads) (a : arr Z) : res (arr Z) :=
  foldM (fun a ax =>
    if dim ax a <=? 1 then Ok a
    else let (p, q) := pad_of P ax in copy_slab ax (dim ax a - q - p) 0 p a)
    [0; 1; 2]%nat a.

(** [detail::periodic_copy_above_to_below] (GooseEYE.h:243-272). *)
Definition above_to_below (P : pads) (a : arr Z) : res (arr Z) :=
  foldM (fun a ax =>
    if dim ax a <=? 1 then Ok a
    else let (p, q) := pad_of P ax in copy_slab ax p (dim ax a - q) q a)
    [0; 1; 2]%nat a.

(** [detail::periodic_copy] (GooseEYE.h:274-279). *)
Definition periodic_copy (P : pads) (a : arr Z) : res (arr Z) :=
  a <- above_to_below P a ;; below_to_above P a.

(** [iterations(l)]: xtensor gives a one-element tensor the stride 0. *)
Definition iter_of (iterations : list Z) (l : Z) : res Z :=
  vget iterations (if lenZ iterations =? 1 then 0 else l).

(** One position of the loop of [dilate] (GooseEYE.h:330-360). *)
Definition dil_point (iter : Z) (iterations : list Z) (K F : arr Z) (P : pads) (G : arr Z)
  (x : Z * Z * Z) : res (arr Z) :=
  let '((p0, q0), (p1, q1), (p2, q2)) := P in
  let '(h, i, j) := x in
  l <- aget F h i j ;;
  if l =? 0 then Ok G
  else
    n <- iter_of iterations l ;;
    if n <=? iter then Ok G
    else if inb F (h - p0) (i - p1) (j - p2) && inb F (h + q0) (i + q1) (j + q2)
    then Ok (tab (d0 G) (d1 G) (d2 G) (fun a b c =>
           if (h - p0 <=? a) && (a <=? h + q0) && (i - p1 <=? b) && (b <=? i + q1) &&
              (j - p2 <=? c) && (c <=? j + q2)
           then if (at3 0 F a b c =? 0) && (at3 0 K (a - (h - p0)) (b - (i - p1)) (c - (j - p2)) =? 1)
                then l else at3 0 G a b c
           else at3 0 G a b c))
    else UB.

(** One iteration (GooseEYE.h:324-371). *)
Definition dil_iter (per : bool) (iterations : list Z) (K : arr Z) (P : pads) (F : arr Z)
  (iter : Z) : res (arr Z) :=
  let '((p0, q0), (p1, q1), (p2, q2)) := P in
  G <- foldM (dil_point iter iterations K F P)
             (loop3 p0 (d0 F - q0) p1 (d1 F - q1) p2 (d2 F - q2)) F ;;
  if per then periodic_copy P G else Ok G.

(** Remove the padding (GooseEYE.h:374-378); the data is then copied row-major into an
    array of the shape of [f]. *)
Definition crop (P : pads) (F : arr Z) : arr Z :=
  let '((p0, q0), (p1, q1), (p2, q2)) := P in
  tab (d0 F - q0 - p0) (d1 F - q1 - p1) (d2 F - q2 - p2)
      (fun h i j => at3 0 F (h + p0) (i + p1) (j + p2)).

(** [dilate(f, kernel, iterations, periodic)] (GooseEYE.h:291-381); [fs], [ks] are shapes,
    [f], [kv] flattened values.  A kernel with a zero-length axis (pad widths wrap around) is
    outside what [xt::pad] supports. *)
Definition dilate (asrt : bool) (fs f ks kv iterations : list Z) (per : bool) : res (list Z) :=
  _ <- assertb asrt (Nat.leb (length fs) 3) ;;
  _ <- assertb asrt (Nat.eqb (length fs) (length ks)) ;;
  _ <- assertb asrt (forallb (fun k => (k =? 0) || (k =? 1)) kv) ;;
  _ <- (if asrt then m <- amax f ;; assertb true (u64 m <=? lenZ iterations + 1) else Ok tt) ;;
  K <- atleast_3d ks kv ;;
  f3 <- atleast_3d fs f ;;
  let P := pad_width (d0 K) (d1 K) (d2 K) in
  if (d0 K <? 1) || (d1 K <? 1) || (d2 K <? 1) then UB
  else
    F <- (if per then pad_periodic 0 f3 P else Ok (pad_constant 0 f3 P)) ;;
    n <- amax iterations ;;
    F <- foldM (dil_iter per iterations K P) (zrange 0 n) F ;;
    Ok (dat (crop P F)).

(** [dilate(f, kernel, n, periodic)] (GooseEYE.h:397-408): the list of iterations is [n] for
    every label up to [amax(f)]. *)
Definition dilate_n (asrt : bool) (fs f ks kv : list Z) (n : Z) (per : bool) : res (list Z) :=
  m <- amax f ;;
  dilate asrt fs f ks kv (repeat n (Z.to_nat (u64 (m + 1)))) per.

(** [dilate(f, iterations, periodic)] (GooseEYE.h:387-391) and
    [dilate(f, n, periodic)] (GooseEYE.h:414-419): with [kernel::nearest]. *)
Definition dilate_default (asrt : bool) (fs f iterations : list Z) (per : bool) : res (list Z) :=
  k <- nearest asrt (length fs) ;; dilate asrt fs f (fst k) (snd k) iterations per.

Definition dilate_default_n (asrt : bool) (fs f : list Z) (n : Z) (per : bool) : res (list Z) :=
  m <- amax f ;;
  dilate_default asrt fs f (repeat n (Z.to_nat (u64 (m + 1)))) per.
