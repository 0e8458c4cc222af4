(** * Ensemble: model of Ensemble.hpp, Ensemble_mean/S2/C2/W2/W2c/heightheight/L.hpp and of the
    wrappers in GooseEYE.hpp:28-164

    [double] is modelled by exact rationals ([Qc], canonical fractions), the square root by a
    formal root: rounding is not modelled. *)

From Coq Require Import ZArith QArith Qcanon List Bool.
From Verif Require Import Base Array3 Path.
Import ListNotations.
Open Scope Z_scope.

(** An array as the user passes it: shape and row-major values. *)
Record img (A : Type) := mkimg { i_shape : list Z; i_vals : list A }.
Arguments mkimg {A} _ _.
Arguments i_shape {A} _.
Arguments i_vals {A} _.

Definition zq (z : Z) : Qc := Q2Qc (inject_Z z).

Definition Qclt_b (a b : Qc) : bool := negb (Qle_bool (this b) (this a)).
Definition Qceq_b (a b : Qc) : bool := Qeq_bool (this a) (this b).

(** A [double] that is read by the user: a rational, the root of one, or not a (finite)
    number. *)
Inductive value := Exact (q : Qc) | Root (q : Qc) | NaN.

(** [pow(x, 0.5)]. *)
Definition root (v : value) : value :=
  match v with
  | Exact q => if Qclt_b q 0%Qc then NaN else Root q
  | _ => NaN
  end.

(** [Ensemble::Type] (GooseEYE.h:1603). *)
Inductive stat := Unset | S_mean | S_S2 | S_C2 | S_W2 | S_W2c | S_L | S_heightheight.

Definition stat_eqb (a b : stat) : bool :=
  match a, b with
  | Unset, Unset | S_mean, S_mean | S_S2, S_S2 | S_C2, S_C2 | S_W2, S_W2 | S_W2c, S_W2c
  | S_L, S_L | S_heightheight, S_heightheight => true
  | _, _ => false
  end.

(** The members of [Ensemble] (GooseEYE.h:1602-1631); [m_shape] is the shape of [e_first],
    and [m_pad] is computed from it. *)
Record ens := mkens {
  e_stat : stat; e_per : bool; e_var : bool; e_roi : list Z;
  e_first : arr Qc; e_second : arr Qc; e_norm : arr Qc
}.

Definition set_stat (e : ens) (s : stat) : ens :=
  mkens s (e_per e) (e_var e) (e_roi e) (e_first e) (e_second e) (e_norm e).
Definition set_data (e : ens) (f s n : arr Qc) : ens :=
  mkens (e_stat e) (e_per e) (e_var e) (e_roi e) f s n.

(** [m_pad] (Ensemble.hpp:23). *)
Definition e_pad (e : ens) : pads := pad_width (d0 (e_first e)) (d1 (e_first e)) (d2 (e_first e)).

(** Constructor (Ensemble.hpp:14-24). *)
Definition ensemble (asrt : bool) (roi : list Z) (per var : bool) : res ens :=
  _ <- assertb asrt (Nat.leb (length roi) 3) ;;
  s <- shape3 roi ;;
  let '(n0, n1, n2) := s in
  let z := tab n0 n1 n2 (fun _ _ _ => 0%Qc) in
  Ok (mkens Unset per var roi z z z).

(** ** Reading *)

(** [xt::where(m_norm <= 0, 1.0, m_norm)]. *)
Definition safe (n : Qc) : Qc := if Qclt_b 0%Qc n then n else 1%Qc.

(** [Ensemble::result] (Ensemble.hpp:26-35). *)
Definition result (e : ens) : list value :=
  map (fun fn => let v := Exact (fst fn / safe (snd fn))%Qc in
                 match e_stat e with S_heightheight => root v | _ => v end)
      (combine (dat (e_first e)) (dat (e_norm e))).

(** [(m_second / norm - pow(m_first / norm, 2)) * norm / (norm - 1)] (Ensemble.hpp:39-41). *)
Definition var_of (f s n : Qc) : value :=
  let n := safe n in
  if Qceq_b (n - 1)%Qc 0%Qc then NaN
  else Exact ((s / n - (f / n) * (f / n)) * n / (n - 1))%Qc.

(** [Ensemble::variance] (Ensemble.hpp:37-51). *)
Definition variance (e : ens) : res (list value) :=
  let v := map (fun x => var_of (fst (fst x)) (snd (fst x)) (snd x))
               (combine (combine (dat (e_first e)) (dat (e_second e))) (dat (e_norm e))) in
  match e_stat e with
  | S_heightheight => Ok (map root v)
  | S_mean => Ok v
  | _ => Throw
  end.

(** [data_first], [data_second], [norm] (Ensemble.hpp:53-69). *)
Definition data_first (e : ens) : list Qc := dat (e_first e).
Definition data_second (e : ens) : list Qc := dat (e_second e).
Definition norm (e : ens) : list Qc := dat (e_norm e).

(** ** Distances *)

(** [xt::linspace(-p, q, n)], element [k] (Ensemble.hpp:78-81). *)
Definition linspace (p q n k : Z) : Qc := (zq (- p) + zq k * (zq (q - - p) / zq (Z.max 1 (n - 1))))%Qc.

(** [distance(axis)] (Ensemble.hpp:71-101). *)
Definition distance_axis (asrt : bool) (e : ens) (axis : Z) : res (list Qc) :=
  _ <- assertb asrt (axis <? lenZ (e_roi e)) ;;
  let a := atleast_3d_axis (lenZ (e_roi e)) axis in
  let '(P0, P1, P2) := e_pad e in
  let '(n0, n1, n2) := (d0 (e_first e), d1 (e_first e), d2 (e_first e)) in
  match a with
  | 0 => Ok (dat (tab n0 n1 n2 (fun h i j => linspace (fst P0) (snd P0) n0 h)))
  | 1 => Ok (dat (tab n0 n1 n2 (fun h i j => linspace (fst P1) (snd P1) n1 i)))
  | 2 => Ok (dat (tab n0 n1 n2 (fun h i j => linspace (fst P2) (snd P2) n2 j)))
  | _ => UB
  end.

Definition sum_squares (asrt : bool) (e : ens) (h : Z -> Qc) : res (list Qc) :=
  foldM (fun acc i =>
           d <- distance_axis asrt e i ;;
           Ok (map (fun x => fst x + (snd x * h i) * (snd x * h i))%Qc (combine acc d)))
        (zrange 0 (lenZ (e_roi e))) (repeat 0%Qc (Z.to_nat (zprod (e_roi e)))).

(** [distance()] (Ensemble.hpp:103-112). *)
Definition distance (asrt : bool) (e : ens) : res (list value) :=
  s <- sum_squares asrt e (fun _ => 1%Qc) ;; Ok (map (fun q => root (Exact q)) s).

(** [distance(h)] (Ensemble.hpp:114-125). *)
Definition distance_h (asrt : bool) (e : ens) (h : list Qc) : res (list value) :=
  _ <- assertb asrt (lenZ (e_roi e) =? lenZ h) ;;
  _ <- mapM (vget h) (zrange 0 (lenZ (e_roi e))) ;;
  s <- sum_squares asrt e (fun i => nth (Z.to_nat i) h 0%Qc) ;; Ok (map (fun q => root (Exact q)) s).

(** [distance(h, axis)] (Ensemble.hpp:127-131). *)
Definition distance_h_axis (asrt : bool) (e : ens) (h : list Qc) (axis : Z) : res (list Qc) :=
  _ <- assertb asrt (lenZ (e_roi e) =? lenZ h) ;;
  d <- distance_axis asrt e axis ;;
  s <- vget h axis ;;
  Ok (map (fun x => x * s)%Qc d).

(** ** Adding realizations *)

(** [xt::atleast_3d(f)]. *)
Definition to3 {A} (f : img A) : res (arr A) := atleast_3d (i_shape f) (i_vals f).

Fixpoint shape_eqb (a b : list Z) : bool :=
  match a, b with
  | [], [] => true
  | x :: a', y :: b' => (x =? y) && shape_eqb a' b'
  | _, _ => false
  end.

(** [xt::all(xt::equal(m, 0) || xt::equal(m, 1))]. *)
Definition binary (m : img Z) : bool := forallb (fun x => (x =? 0) || (x =? 1)) (i_vals m).

(** [m_stat == s || m_stat == Unset]. *)
Definition unlocked (e : ens) (s : stat) : bool := stat_eqb (e_stat e) s || stat_eqb (e_stat e) Unset.

(** [xt::zeros<int>(f.shape())]. *)
Definition zeros (shape : list Z) : img Z := mkimg shape (repeat 0 (Z.to_nat (zprod shape))).

(** [xt::pad(a, m_pad, pad_mode)] with [pad_mode] periodic or constant (Ensemble_S2.hpp:33-46). *)
Definition pad_mode {A} (per : bool) (z : A) (a : arr A) (P : pads) : res (arr A) :=
  if per then pad_periodic z a P else Ok (pad_constant z a P).

(** [xt::pad(m, m_pad, constant, mask_value)], [mask_value] 0 if periodic, 1 otherwise
    (Ensemble_S2.hpp:35, 40, 47-50). *)
Definition pad_mask (per : bool) (m : arr Z) (P : pads) : arr Z :=
  pad_constant (if per then 0 else 1) m P.

(** The pad widths of a roi with an empty axis wrap around: outside what [xt::pad] supports. *)
Definition roi_ok (e : ens) : res unit :=
  if (d0 (e_first e) <? 1) || (d1 (e_first e) <? 1) || (d2 (e_first e) <? 1) then UB else Ok tt.

(** The positions of the three nested loops (Ensemble_S2.hpp:53-55). *)
Definition positions {A} (P : pads) (F : arr A) : list (Z * Z * Z) :=
  let '((p0, q0), (p1, q1), (p2, q2)) := P in
  loop3 p0 (d0 F - q0) p1 (d1 F - q1) p2 (d2 F - q2).

(** The window of an array around a position, [xt::view(G, range(h - m_pad[0][0], h +
    m_pad[0][1] + 1), ...)] (Ensemble_S2.hpp:61-65): its element at [a, b, c].  The window has
    the shape of the roi, so that nothing is broadcast below. *)
Definition window {A} (z : A) (P : pads) (G : arr A) (x : Z * Z * Z) : res (Z -> Z -> Z -> A) :=
  let '((p0, q0), (p1, q1), (p2, q2)) := P in
  let '(h, i, j) := x in
  if inb G (h - p0) (i - p1) (j - p2) && inb G (h + q0) (i + q1) (j + q2)
  then Ok (fun a b c => at3 z G (h - p0 + a) (i - p1 + b) (j - p2 + c))
  else UB.

(** [A += v]. *)
Definition plus (A : arr Qc) (v : Z -> Z -> Z -> Qc) : arr Qc :=
  tab (d0 A) (d1 A) (d2 A) (fun a b c => at3 0%Qc A a b c + v a b c)%Qc.

Definition aget3 {A} (F : arr A) (x : Z * Z * Z) : res A := let '(h, i, j) := x in aget F h i j.

(** *** [S2] (Ensemble_S2.hpp:14-88) *)

(** The body of the loops, S2.hpp:56-77. *)
Definition S2_point (P : pads) (F G : arr Qc) (Fmask Gmask : arr Z) (e : ens) (x : Z * Z * Z) : res ens :=
  m <- aget3 Fmask x ;;
  if negb (m =? 0) then Ok e
  else
    Gi <- window 0%Qc P G x ;;
    Gm <- window 0 P Gmask x ;;
    let Gmii a b c := (1 - zq (Gm a b c))%Qc in
    f <- aget3 F x ;;
    Ok (set_data e
          (if Qceq_b f 0%Qc then e_first e else plus (e_first e) (fun a b c => f * Gi a b c * Gmii a b c)%Qc)
          (e_second e) (plus (e_norm e) Gmii)).

Definition S2 (asrt : bool) (e : ens) (f g : img Qc) (fmask gmask : img Z) : res ens :=
  _ <- assertb asrt (shape_eqb (i_shape f) (i_shape g)) ;;
  _ <- assertb asrt (shape_eqb (i_shape f) (i_shape fmask)) ;;
  _ <- assertb asrt (shape_eqb (i_shape f) (i_shape gmask)) ;;
  _ <- assertb asrt (Nat.eqb (length (i_shape f)) (length (e_roi e))) ;;
  _ <- assertb asrt (binary fmask) ;;
  _ <- assertb asrt (binary gmask) ;;
  _ <- assertb asrt (unlocked e S_S2) ;;
  _ <- roi_ok e ;;
  let P := e_pad e in
  f3 <- to3 f ;; g3 <- to3 g ;; fm3 <- to3 fmask ;; gm3 <- to3 gmask ;;
  F <- pad_mode (e_per e) 0%Qc f3 P ;;
  G <- pad_mode (e_per e) 0%Qc g3 P ;;
  foldM (S2_point P F G (pad_mask (e_per e) fm3 P) (pad_mask (e_per e) gm3 P))
        (positions P F) (set_stat e S_S2).

(** *** [C2] (Ensemble_C2.hpp:14-88): integral images *)

(** C2.hpp:56-77. *)
Definition C2_point (P : pads) (F G : arr Z) (Fmask Gmask : arr Z) (e : ens) (x : Z * Z * Z) : res ens :=
  m <- aget3 Fmask x ;;
  if negb (m =? 0) then Ok e
  else
    Gi <- window 0 P G x ;;
    Gm <- window 0 P Gmask x ;;
    let Gmii a b c := (1 - zq (Gm a b c))%Qc in
    f <- aget3 F x ;;
    Ok (set_data e
          (if f =? 0 then e_first e
           else plus (e_first e) (fun a b c => if f =? Gi a b c then Gmii a b c else 0%Qc))
          (e_second e) (plus (e_norm e) Gmii)).

Definition C2 (asrt : bool) (e : ens) (f g : img Z) (fmask gmask : img Z) : res ens :=
  _ <- assertb asrt (shape_eqb (i_shape f) (i_shape g)) ;;
  _ <- assertb asrt (shape_eqb (i_shape f) (i_shape fmask)) ;;
  _ <- assertb asrt (shape_eqb (i_shape f) (i_shape gmask)) ;;
  _ <- assertb asrt (Nat.eqb (length (i_shape f)) (length (e_roi e))) ;;
  _ <- assertb asrt (binary fmask) ;;
  _ <- assertb asrt (binary gmask) ;;
  _ <- assertb asrt (unlocked e S_C2) ;;
  _ <- roi_ok e ;;
  let P := e_pad e in
  f3 <- to3 f ;; g3 <- to3 g ;; fm3 <- to3 fmask ;; gm3 <- to3 gmask ;;
  F <- pad_mode (e_per e) 0 f3 P ;;
  G <- pad_mode (e_per e) 0 g3 P ;;
  foldM (C2_point P F G (pad_mask (e_per e) fm3 P) (pad_mask (e_per e) gm3 P))
        (positions P F) (set_stat e S_C2).

(** *** [W2] (Ensemble_W2.hpp:14-80) *)

(** W2.hpp:52-69. *)
Definition W2_point (P : pads) (F G : arr Qc) (Gmask : arr Z) (e : ens) (x : Z * Z * Z) : res ens :=
  Gi <- window 0%Qc P G x ;;
  Gm <- window 0 P Gmask x ;;
  let Gmii a b c := (1 - zq (Gm a b c))%Qc in
  f <- aget3 F x ;;
  Ok (set_data e
        (if Qceq_b f 0%Qc then e_first e else plus (e_first e) (fun a b c => f * Gi a b c * Gmii a b c)%Qc)
        (e_second e) (plus (e_norm e) (fun a b c => f * Gmii a b c)%Qc)).

Definition W2 (asrt : bool) (e : ens) (f g : img Qc) (gmask : img Z) : res ens :=
  _ <- assertb asrt (shape_eqb (i_shape f) (i_shape g)) ;;
  _ <- assertb asrt (shape_eqb (i_shape f) (i_shape gmask)) ;;
  _ <- assertb asrt (Nat.eqb (length (i_shape f)) (length (e_roi e))) ;;
  _ <- assertb asrt (binary gmask) ;;
  _ <- assertb asrt (unlocked e S_W2) ;;
  _ <- roi_ok e ;;
  let P := e_pad e in
  f3 <- to3 f ;; g3 <- to3 g ;; gm3 <- to3 gmask ;;
  F <- pad_mode (e_per e) 0%Qc f3 P ;;
  G <- pad_mode (e_per e) 0%Qc g3 P ;;
  foldM (W2_point P F G (pad_mask (e_per e) gm3 P)) (positions P F) (set_stat e S_W2).

(** *** [heightheight] (Ensemble_heightheight.hpp:14-84) *)

(** heightheight.hpp:50-73. *)
Definition hh_point (P : pads) (F : arr Qc) (Fmask : arr Z) (e : ens) (x : Z * Z * Z) : res ens :=
  m <- aget3 Fmask x ;;
  if negb (m =? 0) then Ok e
  else
    Fi <- window 0%Qc P F x ;;
    Fm <- window 0 P Fmask x ;;
    let Fmii a b c := (1 - zq (Fm a b c))%Qc in
    f <- aget3 F x ;;
    let sq a b c := ((Fi a b c - f) * (Fi a b c - f))%Qc in
    Ok (set_data e
          (plus (e_first e) (fun a b c => sq a b c * Fmii a b c)%Qc)
          (if e_var e then plus (e_second e) (fun a b c => sq a b c * sq a b c * Fmii a b c)%Qc else e_second e)
          (plus (e_norm e) Fmii)).

Definition heightheight (asrt : bool) (e : ens) (f : img Qc) (fmask : img Z) : res ens :=
  _ <- assertb asrt (shape_eqb (i_shape f) (i_shape fmask)) ;;
  _ <- assertb asrt (Nat.eqb (length (i_shape f)) (length (e_roi e))) ;;
  _ <- assertb asrt (binary fmask) ;;
  _ <- assertb asrt (unlocked e S_heightheight) ;;
  _ <- roi_ok e ;;
  let P := e_pad e in
  f3 <- to3 f ;; fm3 <- to3 fmask ;;
  F <- pad_mode (e_per e) 0%Qc f3 P ;;
  foldM (hh_point P F (pad_mask (e_per e) fm3 P)) (positions P F) (set_stat e S_heightheight).

(** *** [mean] (Ensemble_mean.hpp:14-45) *)

Definition qsum (l : list Qc) : Qc := fold_right Qcplus 0%Qc l.

(** [m(0) += v]: the first element. *)
Definition plus0 (A : arr Qc) (v : Qc) : res (arr Qc) :=
  x <- vget (dat A) 0 ;; Ok (mkarr (d0 A) (d1 A) (d2 A) (upd 0 (x + v)%Qc (dat A))).

(** mean.hpp:14-25. *)
Definition mean (asrt : bool) (e : ens) (f : img Qc) : res ens :=
  _ <- assertb asrt ((d0 (e_first e) =? 1) && (d1 (e_first e) =? 1) && (d2 (e_first e) =? 1)) ;;
  _ <- assertb asrt (unlocked e S_mean) ;;
  a <- plus0 (e_first e) (qsum (i_vals f)) ;;
  b <- plus0 (e_second e) (qsum (map (fun x => x * x)%Qc (i_vals f))) ;;
  c <- plus0 (e_norm e) (zq (lenZ (i_vals f))) ;;
  Ok (set_data (set_stat e S_mean) a b c).

(** mean.hpp:27-45.  Shapes that differ (possible without assertions) do not broadcast here:
    [UB]. *)
Definition mean_masked (asrt : bool) (e : ens) (f : img Qc) (fmask : img Z) : res ens :=
  _ <- assertb asrt (shape_eqb (i_shape f) (i_shape fmask)) ;;
  _ <- assertb asrt (binary fmask) ;;
  _ <- assertb asrt ((d0 (e_first e) =? 1) && (d1 (e_first e) =? 1) && (d2 (e_first e) =? 1)) ;;
  _ <- assertb asrt (unlocked e S_mean) ;;
  if negb (shape_eqb (i_shape f) (i_shape fmask)) then UB
  else
    let w (x : Qc * Z) (y : Qc) := if snd x =? 0 then y else 0%Qc in
    let fm := combine (i_vals f) (i_vals fmask) in
    a <- plus0 (e_first e) (qsum (map (fun x => w x (fst x)) fm)) ;;
    b <- plus0 (e_second e) (qsum (map (fun x => w x (fst x * fst x)%Qc) fm)) ;;
    c <- plus0 (e_norm e) (zq (zsum (map (fun m => 1 - m) (i_vals fmask)))) ;;
    Ok (set_data (set_stat e S_mean) a b c).

(** *** [L] (Ensemble_L.hpp:14-91) *)

(** L.hpp:42-47: is [k] inside the range that is set to 0 along an axis of length [n]? *)
Definition interior (n k : Z) : bool := if 1 <? n then (1 <=? k) && (k <? n - 1) else true.

(** L.hpp:41-53: the end points, relative to the centre of the roi. *)
Definition stamps (n0 n1 n2 : Z) (P : pads) : list (list Z) :=
  let '((p0, _), (p1, _), (p2, _)) := P in
  map (fun x => let '(a, b, c) := x in [a - p0; b - p1; c - p2])
      (filter (fun x => let '(a, b, c) := x in
                        negb (interior n0 a && interior n1 b && interior n2 c))
              (loop3 0 n0 0 n1 0 n2)).

(** [m(a, b, c) += v]: an axis of length one has stride 0; only the position in the buffer
    decides whether the write is in range. *)
Definition stride_off {A} (m : arr A) (a b c : Z) : Z :=
  (if d0 m =? 1 then 0 else a * (d1 m * d2 m)) + (if d1 m =? 1 then 0 else b * d2 m) +
  (if d2 m =? 1 then 0 else c).

Definition incr (m : arr Qc) (a b c : Z) (v : Qc) : res (arr Qc) :=
  let o := stride_off m a b c in
  x <- vget (dat m) o ;;
  l <- vset (dat m) o (x + v)%Qc ;;
  Ok (mkarr (d0 m) (d1 m) (d2 m) l).

(** L.hpp:67-78: walk along the path until the phase ends. *)
Fixpoint L_walk (P : pads) (F : arr Z) (x : Z * Z * Z) (rows : list (list Z)) (first : arr Qc) : res (arr Qc) :=
  match rows with
  | [] => Ok first
  | row :: rows' =>
      match row with
      | [dh; di; dj] =>
          let '(h, i, j) := x in
          let '((p0, _), (p1, _), (p2, _)) := P in
          v <- aget F (h + dh) (i + di) (j + dj) ;;
          if v =? 0 then Ok first
          else
            first' <- incr first (p0 + dh) (p1 + di) (p2 + dj) 1%Qc ;;
            L_walk P F x rows' first'
      | _ => UB
      end
  end.

(** L.hpp:83-89. *)
Definition L_norm (P : pads) (size : Z) (norm : arr Qc) (row : list Z) : res (arr Qc) :=
  match row with
  | [dh; di; dj] =>
      let '((p0, _), (p1, _), (p2, _)) := P in
      incr norm (p0 + dh) (p1 + di) (p2 + dj) (zq size)
  | _ => UB
  end.

(** Enough turns for the loops of [path] (proved). *)
Definition path_fuel (e : ens) : nat := Z.to_nat (d0 (e_first e) + d1 (e_first e) + d2 (e_first e) + 1).

(** L.hpp:57-90: one end point. *)
Definition L_stamp (P : pads) (F : arr Z) (size : Z) (mode : path_mode) (e : ens) (s : list Z) : res ens :=
  rows <- path (path_fuel e) [0; 0; 0] s mode ;;
  a <- foldM (fun first x => L_walk P F x rows first) (positions P F) (e_first e) ;;
  c <- foldM (L_norm P size) rows (e_norm e) ;;
  Ok (set_data e a (e_second e) c).

Definition L (asrt : bool) (e : ens) (f : img Z) (mode : path_mode) : res ens :=
  _ <- assertb asrt (Nat.eqb (length (i_shape f)) (length (e_roi e))) ;;
  _ <- assertb asrt (unlocked e S_L) ;;
  _ <- roi_ok e ;;
  let P := e_pad e in
  f3 <- to3 f ;;
  F <- pad_mode (e_per e) 0 f3 P ;;
  foldM (L_stamp P F (lenZ (i_vals f)) mode)
        (stamps (d0 (e_first e)) (d1 (e_first e)) (d2 (e_first e)) P) (set_stat e S_L).

(** *** [W2c] (Ensemble_W2c.hpp:14-127) *)

(** W2c.hpp:88-115: the rest of the path from row [p]; [all] is the whole path.  The third
    index of the target uses [m_pad[1][0]] (W2c.hpp:105, 110). *)
Fixpoint W2c_walk (P : pads) (C : arr Z) (Fm : arr Z) (F : arr Qc) (label : Z) (x : Z * Z * Z)
  (all rest : list (list Z)) (q : Z) (fn : arr Qc * arr Qc) : res (arr Qc * arr Qc) :=
  match rest with
  | [] => Ok fn
  | row :: rest' =>
      match row with
      | [dh; di; dj] =>
          let '(h, i, j) := x in
          let '((p0, _), (p1, _), (p2, _)) := P in
          c <- aget C (h + dh) (i + di) (j + dj) ;;
          let q := if negb (c =? label) && (q <? 0) then 0 else q in
          fn <- (if 0 <=? q then
                   m <- aget Fm (h + dh) (i + di) (j + dj) ;;
                   if m =? 0 then
                     to <- vget all q ;;
                     match to with
                     | [th; ti; tj] =>
                         n <- incr (snd fn) (p0 + th) (p1 + ti) (p1 + tj) 1%Qc ;;
                         v <- aget F (h + dh) (i + di) (j + dj) ;;
                         f <- incr (fst fn) (p0 + th) (p1 + ti) (p1 + tj) v ;;
                         Ok (f, n)
                     | _ => UB
                     end
                   else Ok fn
                 else Ok fn) ;;
          W2c_walk P C Fm F label x all rest' (q + 1) fn
      | _ => UB
      end
  end.

(** W2c.hpp:80-86: one position. *)
Definition W2c_point (P : pads) (C Ce Fm : arr Z) (F : arr Qc) (rows : list (list Z))
  (fn : arr Qc * arr Qc) (x : Z * Z * Z) : res (arr Qc * arr Qc) :=
  label <- aget3 Ce x ;;
  if label =? 0 then Ok fn
  else
    c <- aget3 C x ;;
    if negb (c =? label) then Ok fn
    else W2c_walk P C Fm F label x rows rows (-1) fn.

(** W2c.hpp:70-119: one end point. *)
Definition W2c_stamp (P : pads) (C Ce Fm : arr Z) (F : arr Qc) (mode : path_mode) (e : ens) (s : list Z) : res ens :=
  rows <- path (path_fuel e) [0; 0; 0] s mode ;;
  fn <- foldM (W2c_point P C Ce Fm F rows) (positions P F) (e_first e, e_norm e) ;;
  Ok (set_data e (fst fn) (e_second e) (snd fn)).

Definition W2c (asrt : bool) (e : ens) (clusters centers : img Z) (f : img Qc) (fmask : img Z)
  (mode : path_mode) : res ens :=
  _ <- assertb asrt (shape_eqb (i_shape f) (i_shape clusters)) ;;
  _ <- assertb asrt (shape_eqb (i_shape f) (i_shape centers)) ;;
  _ <- assertb asrt (shape_eqb (i_shape f) (i_shape fmask)) ;;
  _ <- assertb asrt (Nat.eqb (length (i_shape f)) (length (e_roi e))) ;;
  _ <- assertb asrt (binary fmask) ;;
  _ <- assertb asrt (unlocked e S_W2c) ;;
  _ <- roi_ok e ;;
  let P := e_pad e in
  f3 <- to3 f ;; fm3 <- to3 fmask ;; c3 <- to3 clusters ;; ce3 <- to3 centers ;;
  F <- pad_mode (e_per e) 0%Qc f3 P ;;
  Fm <- pad_mode (e_per e) 0 fm3 P ;;
  C <- pad_mode (e_per e) 0 c3 P ;;
  Ce <- pad_mode (e_per e) 0 ce3 P ;;
  foldM (W2c_stamp P C Ce Fm F mode)
        (stamps (d0 (e_first e)) (d1 (e_first e)) (d2 (e_first e)) P) (set_stat e S_W2c).

(** ** All calls that add a realization; without masks the overloads pass zeros
    (Ensemble_S2.hpp:83-88 and the same in the other files) *)
Inductive call :=
| Mean (f : img Qc)
| MeanMasked (f : img Qc) (fmask : img Z)
| CallS2 (f g : img Qc) (masks : option (img Z * img Z))
| CallC2 (f g : img Z) (masks : option (img Z * img Z))
| CallW2 (w f : img Qc) (fmask : option (img Z))
| CallW2c (clusters centers : img Z) (f : img Qc) (fmask : option (img Z)) (mode : path_mode)
| CallHH (f : img Qc) (fmask : option (img Z))
| CallL (f : img Z) (mode : path_mode).

Definition mask1 {A} (f : img A) (m : option (img Z)) : img Z :=
  match m with Some m => m | None => zeros (i_shape f) end.
Definition mask2 {A} (f : img A) (m : option (img Z * img Z)) : img Z * img Z :=
  match m with Some m => m | None => (zeros (i_shape f), zeros (i_shape f)) end.

Definition add (asrt : bool) (e : ens) (c : call) : res ens :=
  match c with
  | Mean f => mean asrt e f
  | MeanMasked f m => mean_masked asrt e f m
  | CallS2 f g m => S2 asrt e f g (fst (mask2 f m)) (snd (mask2 f m))
  | CallC2 f g m => C2 asrt e f g (fst (mask2 f m)) (snd (mask2 f m))
  | CallW2 w f m => W2 asrt e w f (mask1 w m)
  | CallW2c c ce f m mode => W2c asrt e c ce f (mask1 f m) mode
  | CallHH f m => heightheight asrt e f (mask1 f m)
  | CallL f mode => L asrt e f mode
  end.

(** The wrappers for one image (GooseEYE.hpp:52-164). *)
Definition single (asrt : bool) (roi : list Z) (per : bool) (c : call) : res (list value) :=
  e <- ensemble asrt roi per true ;; e <- add asrt e c ;; Ok (result e).
