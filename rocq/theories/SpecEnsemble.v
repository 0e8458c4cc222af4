(** * SpecEnsemble: what the statistics mean

    Pixels are flat row-major indices with coordinates as in SpecCluster.  The statistics are
    sums over pairs of pixels that are a given offset apart. *)

From Coq Require Import ZArith QArith Qcanon Qreals Reals List Bool.
From Verif Require Import Base Path SpecCluster SpecDilate SpecPath Ensemble.
Import ListNotations.
Open Scope Z_scope.

(** Value of a pixel. *)
Definition qn (l : list Qc) (p : Z) : Qc := nth (Z.to_nat p) l 0%Qc.

(** Sum of [F x] over the elements [x] of a list. *)
Definition sum_over {A} (l : list A) (F : A -> Qc) : Qc :=
  fold_right (fun x s => (F x + s)%Qc) 0%Qc l.

(** The offset that element [r] of the region of interest stands for: relative to its
    centre. *)
Definition offset (roi : list Z) (r : Z) : list Z := diff (coords roi r) (anchor roi).

(** [moved] (SpecCluster) as a test. *)
Fixpoint movedb (per : bool) (shape a d b : list Z) : bool :=
  match shape, a, d, b with
  | [], [], [], [] => true
  | n :: shape', x :: a', t :: d', y :: b' =>
      (if per then y =? (x + t) mod n else y =? x + t) && movedb per shape' a' d' b'
  | _, _, _, _ => false
  end.

(** All pairs of pixels [(p, q)] of an image with [q] at offset [d] from [p]. *)
Definition pixels (shape : list Z) : list Z := zrange 0 (zprod shape).
Definition pairs (per : bool) (shape d : list Z) : list (Z * Z) :=
  filter (fun pq => movedb per shape (coords shape (fst pq)) d (coords shape (snd pq)))
         (list_prod (pixels shape) (pixels shape)).

(** Both pixels are unmasked. *)
Definition unmasked (fm gm : list Z) (pq : Z * Z) : bool := (zn fm (fst pq) =? 0) && (zn gm (snd pq) =? 0).

(** As the code counts: the mask of the second pixel is only looked at when that pixel is not
    seen through the boundary. *)
Definition seen (shape fm gm : list Z) (d : list Z) (pq : Z * Z) : bool :=
  (zn fm (fst pq) =? 0) &&
  ((zn gm (snd pq) =? 0) || negb (movedb false shape (coords shape (fst pq)) d (coords shape (snd pq)))).

(** Squared height difference. *)
Definition sqdiff (f : list Qc) (pq : Z * Z) : Qc :=
  ((qn f (snd pq) - qn f (fst pq)) * (qn f (snd pq) - qn f (fst pq)))%Qc.

(** The same, non-zero label. *)
Definition same_label (f g : list Z) (pq : Z * Z) : bool :=
  negb (zn f (fst pq) =? 0) && (zn f (fst pq) =? zn g (snd pq)).

(** [sum / number], 0 if there is nothing to divide by. *)
Definition quotient (s n : Qc) : Qc := if Qceq_b n 0%Qc then 0%Qc else (s / n)%Qc.

(** An image of this shape. *)
Definition is_image {A} (shape : list Z) (f : img A) : Prop :=
  i_shape f = shape /\ lenZ (i_vals f) = zprod shape.

(** A mask of this shape: 0 and 1. *)
Definition is_mask (shape : list Z) (m : img Z) : Prop :=
  is_image shape m /\ forall x, In x (i_vals m) -> x = 0 \/ x = 1.

(** Shapes of the region of interest and of the image: the same rank, at most 3, no empty
    axis; in a periodic image half the roi fits the image. *)
Definition shapes (per : bool) (roi shape : list Z) : Prop :=
  length roi = length shape /\ (length shape <= 3)%nat /\
  Forall (fun n => 1 <= n < 2 ^ 62) roi /\ Forall (fun n => 1 <= n) shape /\
  (per = true -> half_fits shape roi).

(** The number a [value] stands for. *)
Definition real (v : value) : R :=
  match v with
  | Exact q => Q2R (this q)
  | Root q => sqrt (Q2R (this q))
  | NaN => 0%R
  end.

(** An ensemble to which one realization is added. *)
Definition fresh (asrt : bool) (roi : list Z) (per var : bool) (c : call) : res ens :=
  e <- ensemble asrt roi per var ;; add asrt e c.

(** The data at roi element [r]. *)
Definition first_at (e : ens) (r : Z) : Qc := qn (data_first e) r.
Definition second_at (e : ens) (r : Z) : Qc := qn (data_second e) r.
Definition norm_at (e : ens) (r : Z) : Qc := qn (norm e) r.
Definition result_at (e : ens) (r : Z) : value := nth (Z.to_nat r) (result e) NaN.

(** The data has the shape of the region of interest. *)
Definition roi_shaped (roi : list Z) (e : ens) : Prop :=
  lenZ (data_first e) = zprod roi /\ lenZ (data_second e) = zprod roi /\ lenZ (norm e) = zprod roi /\
  lenZ (result e) = zprod roi.

(** The same images at all pixels that are not masked. *)
Definition same_unmasked {A} (shape : list Z) (m : img Z) (f f' : img A) : Prop :=
  is_image shape f /\ is_image shape f' /\ is_mask shape m /\
  forall p, pixel shape p -> zn (i_vals m) p = 0 -> nth_error (i_vals f) (Z.to_nat p) = nth_error (i_vals f') (Z.to_nat p).

(** Opposite offsets, zero offset. *)
Definition opposite (d : list Z) : list Z := map Z.opp d.
Definition zero_offset (d : list Z) : Prop := forall t, In t d -> t = 0.

(** Two outcomes with the same data. *)
Definition same_data (r r' : res ens) : Prop :=
  exists e e', r = Ok e /\ r' = Ok e' /\
    data_first e = data_first e' /\ data_second e = data_second e' /\ norm e = norm e' /\ result e = result e'.

(** A binary image; its volume fraction. *)
Definition two_phase (f : img Qc) : Prop := forall x, In x (i_vals f) -> x = 0%Qc \/ x = 1%Qc.
Definition volume_fraction (shape : list Z) (f : img Qc) : Qc :=
  (sum_over (pixels shape) (qn (i_vals f)) / zq (zprod shape))%Qc.

(** The statistic a call measures. *)
Definition stat_of (c : call) : stat :=
  match c with
  | Mean _ | MeanMasked _ _ => S_mean
  | CallS2 _ _ _ => S_S2
  | CallC2 _ _ _ => S_C2
  | CallW2 _ _ _ => S_W2
  | CallW2c _ _ _ _ _ => S_W2c
  | CallHH _ _ => S_heightheight
  | CallL _ _ => S_L
  end.

(** A sequence of calls; what can be reached by one. *)
Definition run (asrt : bool) (cs : list call) (e : ens) : res ens := foldM (add asrt) cs e.
Definition reachable (asrt : bool) (roi : list Z) (per var : bool) (e : ens) : Prop :=
  exists e0 cs, ensemble asrt roi per var = Ok e0 /\ run asrt cs e0 = Ok e.

(** Calls of a single measure. *)
Definition one_measure (cs : list call) : Prop := exists s, forall c, In c cs -> stat_of c = s.

(** The data of an ensemble is the sum of the data of others. *)
Definition sum_of_data (roi : list Z) (es : list ens) (e : ens) : Prop :=
  forall r, pixel roi r ->
    first_at e r = sum_over es (fun x => first_at x r) /\
    second_at e r = sum_over es (fun x => second_at x r) /\
    norm_at e r = sum_over es (fun x => norm_at x r).

(** The values a call of [mean] takes into account, for an image of any shape with a mask of
    that shape. *)
Definition mean_values (c : call) : list Qc :=
  match c with
  | Mean f => i_vals f
  | MeanMasked f m => map fst (filter (fun x => snd x =? 0) (combine (i_vals f) (i_vals m)))
  | _ => []
  end.
Definition mean_call (c : call) : Prop :=
  match c with
  | Mean f => True
  | MeanMasked f m => exists shape, is_image shape f /\ is_mask shape m
  | _ => False
  end.

(** Sample mean and unbiased sample variance of values. *)
Definition average (l : list Qc) : Qc := (sum_over l (fun x => x) / zq (lenZ l))%Qc.
Definition sample_variance (l : list Qc) : Qc :=
  (sum_over l (fun x => (x - average l) * (x - average l)) / (zq (lenZ l) - 1))%Qc.

(** Squared length of the offset of roi element [r], axis [a] scaled by [h a]. *)
Definition length2 (roi : list Z) (h : Z -> Qc) (r : Z) : Qc :=
  sum_over (zrange 0 (lenZ roi))
    (fun a => (zq (nth (Z.to_nat a) (offset roi r) 0%Z) * h a) * (zq (nth (Z.to_nat a) (offset roi r) 0%Z) * h a))%Qc.

(** ** Paths of the lineal path function

    An image seen as a three-dimensional one (same pixels, same order). *)
Definition three (shape : list Z) : list Z :=
  match shape with
  | [] => [1; 1; 1]
  | [n] => [1; n; 1]
  | [n; m] => [n; m; 1]
  | _ => shape
  end.

(** Element [r] is on the border of the region of interest: first or last along an axis that is
    longer than one. *)
Definition border (roi : list Z) (r : Z) : bool :=
  existsb (fun kn => (1 <? snd kn) && ((fst kn =? 0) || (fst kn =? snd kn - 1))) (combine (coords roi r) roi).

(** The offsets of all border elements. *)
Definition edge (roi : list Z) : list (list Z) := map (offset roi) (filter (border roi) (pixels roi)).

(** The pixel at offset [d] of [p] is inside the image (always when periodic) and not zero. *)
Definition in_phase (per : bool) (shape : list Z) (f : list Z) (p : Z) (d : list Z) : bool :=
  existsb (fun q => movedb per shape (coords shape p) d (coords shape q) && negb (zn f q =? 0)) (pixels shape).

Definition same_offset (a b : list Z) : bool := if list_eq_dec Z.eq_dec a b then true else false.

(** The path passes [d]; and all pixels up to and including [d] are good. *)
Definition visits (d : list Z) (rows : list (list Z)) : bool := existsb (same_offset d) rows.
Fixpoint reaches (good : list Z -> bool) (d : list Z) (rows : list (list Z)) : bool :=
  match rows with
  | [] => false
  | row :: rows' => good row && (same_offset d row || reaches good d rows')
  end.

(** The paths from the centre to every border element. *)
Definition paths_of (mode : path_mode) (roi : list Z) (paths : list (list (list Z))) : Prop :=
  Forall2 (fun x rows => (exists fuel, path fuel [0; 0; 0] x mode = Ok rows) /\
                         path_between (some_closer x) [0; 0; 0] x rows) (edge roi) paths.

(** Fraction of non-zero pixels. *)
Definition phase_fraction (shape : list Z) (f : list Z) : Qc :=
  (zq (lenZ (filter (fun p => negb (zn f p =? 0)) (pixels shape))) / zq (zprod shape))%Qc.

(** The sizes for which the paths of this mode are defined. *)
Definition walkable (mode : path_mode) (roi : list Z) : Prop :=
  match mode with
  | Bresenham => Forall (fun n => n <= 2 ^ 30) roi
  | _ => Forall (fun n => n <= 1000000 /\ n <> 2) roi
  end.

(** ** Collapsed weighted correlation *)

(** Value of the pixel at offset [d] of [p]; zero if there is none. *)
Definition value_at (per : bool) (shape : list Z) (f : list Qc) (p : Z) (d : list Z) : Qc :=
  sum_over (filter (fun q => movedb per shape (coords shape p) d (coords shape q)) (pixels shape)) (qn f).

(** Pixel [p] is the centre of a cluster (and part of it). *)
Definition cluster_centre (clusters centers : list Z) (p : Z) : bool :=
  negb (zn centers p =? 0) && (zn clusters p =? zn centers p).

(** All pairs of consecutive offsets of all paths. *)
Definition steps (paths : list (list (list Z))) : list (list Z * list Z) :=
  flat_map (fun rows => combine rows (tl rows)) paths.

(** Half sizes of the last two axes of a three-dimensional region of interest agree. *)
Definition even_sided (roi : list Z) : Prop :=
  match roi with
  | [_; k1; k2] => k2 = 1 \/ (k1 - 1) / 2 = (k2 - 1) / 2
  | _ => True
  end.

(** What the code counts at element [r]: every step [(from, to)] of every path with
    [from = offset r], for every cluster centre [p] such that [p + to] is not masked. *)
Definition counted (per : bool) (roi shape : list Z) (cl ce fm : list Z) (paths : list (list (list Z))) (r : Z) : list (list Z * list Z * Z) :=
  filter (fun w => same_offset (offset (three roi) r) (fst (fst w)) && negb (in_phase per (three shape) fm (snd w) (snd (fst w))))
    (list_prod (steps paths) (filter (cluster_centre cl ce) (pixels shape))).
