(** * Center: model of [center], [center_of_mass], [labels_centers],
    [labels_centers_of_mass] (GooseEYE.h:1224-1390)

    [double] is modelled by Coq's real numbers: rounding is not modelled. *)

From Coq Require Import ZArith List Bool Reals.
From Verif Require Import Base Cluster.
Import ListNotations.
Open Scope R_scope.

(** A [double]: a real number, an infinity ([negative] or not), or not a number.  The two zeros
    are one number; where the code tells them apart the model says which of them it is. *)
Inductive num := Num (x : R) | Inf (negative : bool) | NaN.

Definition rsum (l : list R) : R := fold_right Rplus 0 l.

Fixpoint rmap2 (f : R -> R -> R) (a b : list R) : list R :=
  match a, b with
  | x :: a', y :: b' => f x y :: rmap2 f a' b'
  | _, _ => []
  end.

(** [x / y], where a [y] that vanishes is +0: it is a sum. *)
Definition quotient (x y : R) : num :=
  if Req_EM_T y 0 then if Rlt_dec 0 x then Inf false else if Rlt_dec x 0 then Inf true else NaN
  else Num (x / y).

(** [xt::mean(x, 0)], one column. *)
Definition mean_of (x : list R) : num := quotient (rsum x) (INR (length x)).

(** [xt::average(x, weights, 0)], one column. *)
Definition average_of (w x : list R) : num := quotient (rsum (rmap2 Rmult x w)) (rsum w).

(** [atan2(y, x)] of two numbers; [minus]: a zero argument is -0, otherwise it is +0. *)
Definition atan2_num (minus : bool) (y x : R) : R :=
  if Rlt_dec 0 x then atan (y / x)
  else if Rlt_dec x 0 then
    if Rlt_dec 0 y then atan (y / x) + PI
    else if Rlt_dec y 0 then atan (y / x) - PI
    else if minus then - PI else PI
  else if Rlt_dec 0 y then PI / 2
  else if Rlt_dec y 0 then - (PI / 2)
  else if minus then - PI else 0.

(** [-x]. *)
Definition opposite (x : num) : num :=
  match x with Num v => Num (- v) | Inf s => Inf (negb s) | NaN => NaN end.

(** [atan2(y, x)] as in IEC 60559 (C, annex F). *)
Definition atan2 (minus : bool) (y x : num) : num :=
  match y, x with
  | Num v, Num u => Num (atan2_num minus v u)
  | NaN, _ | _, NaN => NaN
  | Inf s, Inf t =>
      let a := if t then 3 * PI / 4 else PI / 4 in Num (if s then - a else a)
  | Inf s, Num _ => Num (if s then - (PI / 2) else PI / 2)
  | Num v, Inf t =>
      Num (if t then if Rlt_dec 0 v then PI
                     else if Rlt_dec v 0 then - PI else if minus then - PI else PI
           else 0)
  end.

(** One axis of the result (GooseEYE.h:1255-1267, 1284-1296); [avg] is [mean_of] or
    [average_of w], [len] the entry of [shape], [x] the column of [positions].  An average that
    vanishes is +0 divided by the total weight; [minus]: that weight is positive, so that its
    opposite, the argument of [atan2], is -0.  With [len] zero all angles are infinite or not
    a number, and so are their sines and cosines. *)
Definition axis_center (periodic : bool) (avg : list R -> num) (minus : bool) (len : R)
  (x : list R) : num :=
  if negb periodic then avg x
  else if Req_EM_T len 0 then NaN
  else
    let theta := map (fun v => 2 * PI * v / len) x in
    let xi_bar := avg (map cos theta) in
    let zeta_bar := avg (map sin theta) in
    match atan2 minus (opposite zeta_bar) (opposite xi_bar) with
    | Num a => let theta_bar := a + PI in Num (len * theta_bar / (2 * PI))
    | x => x
    end.

(** Column [k] of the rows [positions]. *)
Definition column (k : nat) (positions : list (list R)) : list R :=
  map (fun p => nth k p 0) positions.

(** All axes, the first is number [k]. *)
Fixpoint all_axes (periodic : bool) (avg : list R -> num) (minus : bool) (shape : list R)
  (positions : list (list R)) (k : nat) : list num :=
  match shape with
  | [] => []
  | len :: rest =>
      axis_center periodic avg minus len (column k positions)
        :: all_axes periodic avg minus rest positions (S k)
  end.

(** [positions.size() == 0]. *)
Definition no_positions (shape : list R) (positions : list (list R)) : bool :=
  match shape, positions with
  | [], _ => true
  | _, [] => true
  | _, _ => false
  end.

(** Rows of another length than [shape] (xtensor would broadcast or throw) are not modelled:
    [UB]. *)
Definition rows_fit (shape : list R) (positions : list (list R)) : bool :=
  forallb (fun p => Nat.eqb (length p) (length shape)) positions.

(** [center] (GooseEYE.h:1246-1268); the rows of [positions] are the positions. *)
Definition center (shape : list R) (positions : list (list R)) (periodic : bool)
  : res (list num) :=
  if negb (rows_fit shape positions) then UB
  else if no_positions shape positions then Ok (map (fun _ => Num 0) shape)
  else Ok (all_axes periodic mean_of true shape positions 0).

(** [center_of_mass] (GooseEYE.h:1274-1297); [xt::average] throws if there is not one weight
    per position. *)
Definition center_of_mass (shape : list R) (positions : list (list R)) (weights : list R)
  (periodic : bool) : res (list num) :=
  if negb (rows_fit shape positions) then UB
  else if no_positions shape positions then Ok (map (fun _ => Num 0) shape)
  else if negb (Nat.eqb (length weights) (length positions)) then Throw
  else Ok (all_axes periodic (average_of weights)
             (if Rlt_dec (rsum weights) 0 then false else true) shape positions 0).

(** [xt::argwhere(xt::equal(labels, name))] (GooseEYE.h:1312, 1318, 1353): the multi-indices
    in row-major order ([argwhere] is that of Cluster.v). *)
Definition where_equal (shape labels : list Z) (name : Z) : list (list Z) :=
  argwhere shape (map (fun l => if Z.eqb l name then 1%Z else 0%Z) labels).

(** [xt::from_indices] to [double] (GooseEYE.h:1312, 1323). *)
Definition to_double (l : list (list Z)) : list (list R) := map (map IZR) l.

(** [labels_centers] (GooseEYE.h:1340-1360): the rows.  [names] is one-dimensional in the
    type of the model. *)
Definition labels_centers (asrt : bool) (shape labels names : list Z) (periodic : bool)
  : res (list (list num)) :=
  _ <- assertb asrt (Nat.ltb 0 (length shape)) ;;
  mapM (fun name =>
          let positions := to_double (where_equal shape labels name) in
          if no_positions (map IZR shape) positions then Ok (map (fun _ => Num 0) shape)
          else center (map IZR shape) positions periodic) names.

(** [PositionList::set(condition, w)] (GooseEYE.h:1315-1324): the weights; [w[pos[i]]] does
    not check its index. *)
Definition weights_at (wshape : list Z) (w : list R) (pos : list (list Z)) : res (list R) :=
  mapM (fun p => vget w (dot p (strides wshape))) pos.

(** [labels_centers_of_mass] (GooseEYE.h:1368-1390). *)
Definition labels_centers_of_mass (asrt : bool) (shape labels wshape : list Z) (w : list R)
  (names : list Z) (periodic : bool) : res (list (list num)) :=
  _ <- assertb asrt (eqbl shape wshape) ;;
  _ <- assertb asrt (Nat.ltb 0 (length shape)) ;;
  mapM (fun name =>
          let pos := where_equal shape labels name in
          let positions := to_double pos in
          ws <- weights_at wshape w pos ;;
          if no_positions (map IZR shape) positions then Ok (map (fun _ => Num 0) shape)
          else center_of_mass (map IZR shape) positions ws periodic) names.
