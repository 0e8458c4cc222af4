(** * EnsembleFloat: Ensemble.hpp and Ensemble_mean/S2/C2/W2/W2c/heightheight/L.hpp once more,
    now with [double] as IEEE 754 numbers

    Ensemble.v models the same code with exact rationals.  Here every sum, product and quotient
    rounds, and there are infinities and NaNs.  Images that hold numbers hold [double]s (which
    is what the Python bindings pass); images of labels, phases and masks are integral. *)

From Coq Require Import ZArith List Bool.
From Verif Require Import Base Array3 Path Double Ensemble.
Import ListNotations.
Open Scope Z_scope.

(** What the code calls and IEEE 754 does not fix: [pow(x, 2.0)], [pow(x, 4.0)],
    [pow(x, 0.5)] of the C library, and the order in which [xt::sum] adds. *)
Record libm := mklibm {
  pow2 : double -> double; pow4 : double -> double; pow_half : double -> double;
  total : list double -> double
}.

(** The members of [Ensemble] (GooseEYE.h:1602-1631). *)
Record fens := mkfens {
  f_stat : stat; f_per : bool; f_var : bool; f_roi : list Z;
  f_first : arr double; f_second : arr double; f_norm : arr double
}.

Definition fset_stat (e : fens) (s : stat) : fens :=
  mkfens s (f_per e) (f_var e) (f_roi e) (f_first e) (f_second e) (f_norm e).
Definition fset_data (e : fens) (f s n : arr double) : fens :=
  mkfens (f_stat e) (f_per e) (f_var e) (f_roi e) f s n.

(** [m_pad] (Ensemble.hpp:23). *)
Definition f_pad (e : fens) : pads := pad_width (d0 (f_first e)) (d1 (f_first e)) (d2 (f_first e)).

(** Constructor (Ensemble.hpp:14-24). *)
Definition fensemble (asrt : bool) (roi : list Z) (per var : bool) : res fens :=
  _ <- assertb asrt (Nat.leb (length roi) 3) ;;
  s <- shape3 roi ;;
  let '(n0, n1, n2) := s in
  let z := tab n0 n1 n2 (fun _ _ _ => dzero) in
  Ok (mkfens Unset per var roi z z z).

(** [xt::where(m_norm <= 0, 1.0, m_norm)] (Ensemble.hpp:28, 39). *)
Definition fsafe (n : double) : double := if dle n dzero then done else n.

(** [Ensemble::result] (Ensemble.hpp:26-35). *)
Definition fresult (L : libm) (e : fens) : list double :=
  map (fun fn => let v := ddiv (fst fn) (fsafe (snd fn)) in
                 match f_stat e with S_heightheight => pow_half L v | _ => v end)
      (combine (dat (f_first e)) (dat (f_norm e))).

(** [Ensemble::variance] (Ensemble.hpp:37-51). *)
Definition fvar_of (L : libm) (f s n : double) : double :=
  let n := fsafe n in
  ddiv (dtimes (dminus (ddiv s n) (pow2 L (ddiv f n))) n) (dminus n done).

Definition fvariance (L : libm) (e : fens) : res (list double) :=
  let v := map (fun x => fvar_of L (fst (fst x)) (snd (fst x)) (snd x))
               (combine (combine (dat (f_first e)) (dat (f_second e))) (dat (f_norm e))) in
  match f_stat e with
  | S_heightheight => Ok (map (pow_half L) v)
  | S_mean => Ok v
  | _ => Throw
  end.

(** [data_first], [data_second], [norm] (Ensemble.hpp:53-69). *)
Definition fdata_first (e : fens) : list double := dat (f_first e).
Definition fdata_second (e : fens) : list double := dat (f_second e).
Definition fnorm (e : fens) : list double := dat (f_norm e).

(** [m_stat == s || m_stat == Unset]. *)
Definition funlocked (e : fens) (s : stat) : bool := stat_eqb (f_stat e) s || stat_eqb (f_stat e) Unset.

(** As [roi_ok] in Ensemble.v. *)
Definition froi_ok (e : fens) : res unit :=
  if (d0 (f_first e) <? 1) || (d1 (f_first e) <? 1) || (d2 (f_first e) <? 1) then UB else Ok tt.

(** [A += v]. *)
Definition fplus (A : arr double) (v : Z -> Z -> Z -> double) : arr double :=
  tab (d0 A) (d1 A) (d2 A) (fun a b c => dplus (at3 dzero A a b c) (v a b c)).

(** [1.0 - mask] (Ensemble_S2.hpp:69-73), the mask as [double]. *)
Definition inverse (m : Z) : double := dminus done (dz m).

(** *** [S2] (Ensemble_S2.hpp:15-88); [Fd * Gi * Gmii] associates to the left *)
Definition fS2_point (P : pads) (F G : arr double) (Fmask Gmask : arr Z) (e : fens) (x : Z * Z * Z) : res fens :=
  m <- aget3 Fmask x ;;
  if negb (m =? 0) then Ok e
  else
    Gi <- window dzero P G x ;;
    Gm <- window 0 P Gmask x ;;
    let Gmii a b c := inverse (Gm a b c) in
    f <- aget3 F x ;;
    Ok (fset_data e
          (if deq f dzero then f_first e
           else fplus (f_first e) (fun a b c => dtimes (dtimes f (Gi a b c)) (Gmii a b c)))
          (f_second e) (fplus (f_norm e) Gmii)).

Definition fS2 (asrt : bool) (e : fens) (f g : img double) (fmask gmask : img Z) : res fens :=
  _ <- assertb asrt (shape_eqb (i_shape f) (i_shape g)) ;;
  _ <- assertb asrt (shape_eqb (i_shape f) (i_shape fmask)) ;;
  _ <- assertb asrt (shape_eqb (i_shape f) (i_shape gmask)) ;;
  _ <- assertb asrt (Nat.eqb (length (i_shape f)) (length (f_roi e))) ;;
  _ <- assertb asrt (binary fmask) ;;
  _ <- assertb asrt (binary gmask) ;;
  _ <- assertb asrt (funlocked e S_S2) ;;
  _ <- froi_ok e ;;
  let P := f_pad e in
  f3 <- to3 f ;; g3 <- to3 g ;; fm3 <- to3 fmask ;; gm3 <- to3 gmask ;;
  F <- pad_mode (f_per e) dzero f3 P ;;
  G <- pad_mode (f_per e) dzero g3 P ;;
  foldM (fS2_point P F G (pad_mask (f_per e) fm3 P) (pad_mask (f_per e) gm3 P))
        (positions P F) (fset_stat e S_S2).

(** *** [C2] (Ensemble_C2.hpp:15-88): integral images *)
Definition fC2_point (P : pads) (F G : arr Z) (Fmask Gmask : arr Z) (e : fens) (x : Z * Z * Z) : res fens :=
  m <- aget3 Fmask x ;;
  if negb (m =? 0) then Ok e
  else
    Gi <- window 0 P G x ;;
    Gm <- window 0 P Gmask x ;;
    let Gmii a b c := inverse (Gm a b c) in
    f <- aget3 F x ;;
    Ok (fset_data e
          (if f =? 0 then f_first e
           else fplus (f_first e) (fun a b c => if f =? Gi a b c then Gmii a b c else dzero))
          (f_second e) (fplus (f_norm e) Gmii)).

Definition fC2 (asrt : bool) (e : fens) (f g : img Z) (fmask gmask : img Z) : res fens :=
  _ <- assertb asrt (shape_eqb (i_shape f) (i_shape g)) ;;
  _ <- assertb asrt (shape_eqb (i_shape f) (i_shape fmask)) ;;
  _ <- assertb asrt (shape_eqb (i_shape f) (i_shape gmask)) ;;
  _ <- assertb asrt (Nat.eqb (length (i_shape f)) (length (f_roi e))) ;;
  _ <- assertb asrt (binary fmask) ;;
  _ <- assertb asrt (binary gmask) ;;
  _ <- assertb asrt (funlocked e S_C2) ;;
  _ <- froi_ok e ;;
  let P := f_pad e in
  f3 <- to3 f ;; g3 <- to3 g ;; fm3 <- to3 fmask ;; gm3 <- to3 gmask ;;
  F <- pad_mode (f_per e) 0 f3 P ;;
  G <- pad_mode (f_per e) 0 g3 P ;;
  foldM (fC2_point P F G (pad_mask (f_per e) fm3 P) (pad_mask (f_per e) gm3 P))
        (positions P F) (fset_stat e S_C2).

(** *** [W2] (Ensemble_W2.hpp:15-80) *)
Definition fW2_point (P : pads) (F G : arr double) (Gmask : arr Z) (e : fens) (x : Z * Z * Z) : res fens :=
  Gi <- window dzero P G x ;;
  Gm <- window 0 P Gmask x ;;
  let Gmii a b c := inverse (Gm a b c) in
  f <- aget3 F x ;;
  Ok (fset_data e
        (if deq f dzero then f_first e
         else fplus (f_first e) (fun a b c => dtimes (dtimes f (Gi a b c)) (Gmii a b c)))
        (f_second e) (fplus (f_norm e) (fun a b c => dtimes f (Gmii a b c)))).

Definition fW2 (asrt : bool) (e : fens) (f g : img double) (gmask : img Z) : res fens :=
  _ <- assertb asrt (shape_eqb (i_shape f) (i_shape g)) ;;
  _ <- assertb asrt (shape_eqb (i_shape f) (i_shape gmask)) ;;
  _ <- assertb asrt (Nat.eqb (length (i_shape f)) (length (f_roi e))) ;;
  _ <- assertb asrt (binary gmask) ;;
  _ <- assertb asrt (funlocked e S_W2) ;;
  _ <- froi_ok e ;;
  let P := f_pad e in
  f3 <- to3 f ;; g3 <- to3 g ;; gm3 <- to3 gmask ;;
  F <- pad_mode (f_per e) dzero f3 P ;;
  G <- pad_mode (f_per e) dzero g3 P ;;
  foldM (fW2_point P F G (pad_mask (f_per e) gm3 P)) (positions P F) (fset_stat e S_W2).

(** *** [heightheight] (Ensemble_heightheight.hpp:15-84) *)
Definition fhh_point (L : libm) (P : pads) (F : arr double) (Fmask : arr Z) (e : fens) (x : Z * Z * Z) : res fens :=
  m <- aget3 Fmask x ;;
  if negb (m =? 0) then Ok e
  else
    Fi <- window dzero P F x ;;
    Fm <- window 0 P Fmask x ;;
    let Fmii a b c := inverse (Fm a b c) in
    f <- aget3 F x ;;
    Ok (fset_data e
          (fplus (f_first e) (fun a b c => dtimes (pow2 L (dminus (Fi a b c) f)) (Fmii a b c)))
          (if f_var e then fplus (f_second e) (fun a b c => dtimes (pow4 L (dminus (Fi a b c) f)) (Fmii a b c))
           else f_second e)
          (fplus (f_norm e) Fmii)).

Definition fheightheight (L : libm) (asrt : bool) (e : fens) (f : img double) (fmask : img Z) : res fens :=
  _ <- assertb asrt (shape_eqb (i_shape f) (i_shape fmask)) ;;
  _ <- assertb asrt (Nat.eqb (length (i_shape f)) (length (f_roi e))) ;;
  _ <- assertb asrt (binary fmask) ;;
  _ <- assertb asrt (funlocked e S_heightheight) ;;
  _ <- froi_ok e ;;
  let P := f_pad e in
  f3 <- to3 f ;; fm3 <- to3 fmask ;;
  F <- pad_mode (f_per e) dzero f3 P ;;
  foldM (fhh_point L P F (pad_mask (f_per e) fm3 P)) (positions P F) (fset_stat e S_heightheight).

(** *** [mean] (Ensemble_mean.hpp:15-45) *)

(** [m(0) += v]. *)
Definition fplus0 (A : arr double) (v : double) : res (arr double) :=
  x <- vget (dat A) 0 ;; Ok (mkarr (d0 A) (d1 A) (d2 A) (upd 0 (dplus x v) (dat A))).

(** mean.hpp:15-26. *)
Definition fmean (L : libm) (asrt : bool) (e : fens) (f : img double) : res fens :=
  _ <- assertb asrt ((d0 (f_first e) =? 1) && (d1 (f_first e) =? 1) && (d2 (f_first e) =? 1)) ;;
  _ <- assertb asrt (funlocked e S_mean) ;;
  a <- fplus0 (f_first e) (total L (i_vals f)) ;;
  b <- fplus0 (f_second e) (total L (map (pow2 L) (i_vals f))) ;;
  c <- fplus0 (f_norm e) (dz (lenZ (i_vals f))) ;;
  Ok (fset_data (fset_stat e S_mean) a b c).

(** mean.hpp:28-45; the masks are summed as integers.  Shapes that differ: as in Ensemble.v. *)
Definition fmean_masked (L : libm) (asrt : bool) (e : fens) (f : img double) (fmask : img Z) : res fens :=
  _ <- assertb asrt (shape_eqb (i_shape f) (i_shape fmask)) ;;
  _ <- assertb asrt (binary fmask) ;;
  _ <- assertb asrt ((d0 (f_first e) =? 1) && (d1 (f_first e) =? 1) && (d2 (f_first e) =? 1)) ;;
  _ <- assertb asrt (funlocked e S_mean) ;;
  if negb (shape_eqb (i_shape f) (i_shape fmask)) then UB
  else
    let w (x : double * Z) (y : double) := if snd x =? 0 then y else dzero in
    let fm := combine (i_vals f) (i_vals fmask) in
    a <- fplus0 (f_first e) (total L (map (fun x => w x (fst x)) fm)) ;;
    b <- fplus0 (f_second e) (total L (map (fun x => w x (pow2 L (fst x))) fm)) ;;
    c <- fplus0 (f_norm e) (dz (zsum (map (fun m => 1 - m) (i_vals fmask)))) ;;
    Ok (fset_data (fset_stat e S_mean) a b c).

(** *** [L] (Ensemble_L.hpp:15-91) *)

(** [m(a, b, c) += v], as [incr] in Ensemble.v. *)
Definition fincr (m : arr double) (a b c : Z) (v : double) : res (arr double) :=
  let o := stride_off m a b c in
  x <- vget (dat m) o ;;
  l <- vset (dat m) o (dplus x v) ;;
  Ok (mkarr (d0 m) (d1 m) (d2 m) l).

(** L.hpp:71-83. *)
Fixpoint fL_walk (P : pads) (F : arr Z) (x : Z * Z * Z) (rows : list (list Z)) (first : arr double) : res (arr double) :=
  match rows with
  | [] => Ok first
  | row :: rows' =>
      match row with
      | [dh; di; dj] =>
          let '(h, i, j) := x in
          let '((p0, _), (p1, _), (p2, _)) := P in
          v <- aget F (h + dh) (i + di) (j + dj) ;;
          if v =? 0 then Ok first
          else
            first' <- fincr first (p0 + dh) (p1 + di) (p2 + dj) done ;;
            fL_walk P F x rows' first'
      | _ => UB
      end
  end.

(** L.hpp:89-94. *)
Definition fL_norm (P : pads) (size : Z) (norm : arr double) (row : list Z) : res (arr double) :=
  match row with
  | [dh; di; dj] =>
      let '((p0, _), (p1, _), (p2, _)) := P in
      fincr norm (p0 + dh) (p1 + di) (p2 + dj) (dz size)
  | _ => UB
  end.

Definition fpath_fuel (e : fens) : nat := Z.to_nat (d0 (f_first e) + d1 (f_first e) + d2 (f_first e) + 1).

(** L.hpp:59-95. *)
Definition fL_stamp (P : pads) (F : arr Z) (size : Z) (mode : path_mode) (e : fens) (s : list Z) : res fens :=
  rows <- path (fpath_fuel e) [0; 0; 0] s mode ;;
  a <- foldM (fun first x => fL_walk P F x rows first) (positions P F) (f_first e) ;;
  c <- foldM (fL_norm P size) rows (f_norm e) ;;
  Ok (fset_data e a (f_second e) c).

Definition fL (asrt : bool) (e : fens) (f : img Z) (mode : path_mode) : res fens :=
  _ <- assertb asrt (Nat.eqb (length (i_shape f)) (length (f_roi e))) ;;
  _ <- assertb asrt (funlocked e S_L) ;;
  _ <- froi_ok e ;;
  let P := f_pad e in
  f3 <- to3 f ;;
  F <- pad_mode (f_per e) 0 f3 P ;;
  foldM (fL_stamp P F (lenZ (i_vals f)) mode)
        (stamps (d0 (f_first e)) (d1 (f_first e)) (d2 (f_first e)) P) (fset_stat e S_L).

(** *** [W2c] (Ensemble_W2c.hpp:14-127) *)

(** W2c.hpp:86-116, as [W2c_walk] in Ensemble.v. *)
Fixpoint fW2c_walk (P : pads) (C : arr Z) (Fm : arr Z) (F : arr double) (label : Z) (x : Z * Z * Z)
  (all rest : list (list Z)) (q : Z) (fn : arr double * arr double) : res (arr double * arr double) :=
  match rest with
  | [] => Ok fn
  | row :: rest' =>
      match row with
      | [dh; di; dj] =>
          let '(h, i, j) := x in
          let '((p0, _), (p1, _), (p2, _)) := P in
          c <- aget C (h + dh) (i + di) (j + dj) ;;
          let q := if negb (c =? label) && (q <? 0) then 0 else q in
          fn <- (if 0 <=? q then
                   m <- aget Fm (h + dh) (i + di) (j + dj) ;;
                   if m =? 0 then
                     to <- vget all q ;;
                     match to with
                     | [th; ti; tj] =>
                         n <- fincr (snd fn) (p0 + th) (p1 + ti) (p1 + tj) done ;;
                         v <- aget F (h + dh) (i + di) (j + dj) ;;
                         f <- fincr (fst fn) (p0 + th) (p1 + ti) (p1 + tj) v ;;
                         Ok (f, n)
                     | _ => UB
                     end
                   else Ok fn
                 else Ok fn) ;;
          fW2c_walk P C Fm F label x all rest' (q + 1) fn
      | _ => UB
      end
  end.

(** W2c.hpp:73-84, 117-119. *)
Definition fW2c_point (P : pads) (C Ce Fm : arr Z) (F : arr double) (rows : list (list Z))
  (fn : arr double * arr double) (x : Z * Z * Z) : res (arr double * arr double) :=
  label <- aget3 Ce x ;;
  if label =? 0 then Ok fn
  else
    c <- aget3 C x ;;
    if negb (c =? label) then Ok fn
    else fW2c_walk P C Fm F label x rows rows (-1) fn.

(** W2c.hpp:66-121. *)
Definition fW2c_stamp (P : pads) (C Ce Fm : arr Z) (F : arr double) (mode : path_mode) (e : fens) (s : list Z) : res fens :=
  rows <- path (fpath_fuel e) [0; 0; 0] s mode ;;
  fn <- foldM (fW2c_point P C Ce Fm F rows) (positions P F) (f_first e, f_norm e) ;;
  Ok (fset_data e (fst fn) (f_second e) (snd fn)).

Definition fW2c (asrt : bool) (e : fens) (clusters centers : img Z) (f : img double) (fmask : img Z)
  (mode : path_mode) : res fens :=
  _ <- assertb asrt (shape_eqb (i_shape f) (i_shape clusters)) ;;
  _ <- assertb asrt (shape_eqb (i_shape f) (i_shape centers)) ;;
  _ <- assertb asrt (shape_eqb (i_shape f) (i_shape fmask)) ;;
  _ <- assertb asrt (Nat.eqb (length (i_shape f)) (length (f_roi e))) ;;
  _ <- assertb asrt (binary fmask) ;;
  _ <- assertb asrt (funlocked e S_W2c) ;;
  _ <- froi_ok e ;;
  let P := f_pad e in
  f3 <- to3 f ;; fm3 <- to3 fmask ;; c3 <- to3 clusters ;; ce3 <- to3 centers ;;
  F <- pad_mode (f_per e) dzero f3 P ;;
  Fm <- pad_mode (f_per e) 0 fm3 P ;;
  C <- pad_mode (f_per e) 0 c3 P ;;
  Ce <- pad_mode (f_per e) 0 ce3 P ;;
  foldM (fW2c_stamp P C Ce Fm F mode)
        (stamps (d0 (f_first e)) (d1 (f_first e)) (d2 (f_first e)) P) (fset_stat e S_W2c).

(** ** All calls that add a realization *)
Inductive fcall :=
| FMean (f : img double)
| FMeanMasked (f : img double) (fmask : img Z)
| FCallS2 (f g : img double) (masks : option (img Z * img Z))
| FCallC2 (f g : img Z) (masks : option (img Z * img Z))
| FCallW2 (w f : img double) (fmask : option (img Z))
| FCallW2c (clusters centers : img Z) (f : img double) (fmask : option (img Z)) (mode : path_mode)
| FCallHH (f : img double) (fmask : option (img Z))
| FCallL (f : img Z) (mode : path_mode).

Definition fadd (L : libm) (asrt : bool) (e : fens) (c : fcall) : res fens :=
  match c with
  | FMean f => fmean L asrt e f
  | FMeanMasked f m => fmean_masked L asrt e f m
  | FCallS2 f g m => fS2 asrt e f g (fst (mask2 f m)) (snd (mask2 f m))
  | FCallC2 f g m => fC2 asrt e f g (fst (mask2 f m)) (snd (mask2 f m))
  | FCallW2 w f m => fW2 asrt e w f (mask1 w m)
  | FCallW2c c ce f m mode => fW2c asrt e c ce f (mask1 f m) mode
  | FCallHH f m => fheightheight L asrt e f (mask1 f m)
  | FCallL f mode => fL asrt e f mode
  end.
