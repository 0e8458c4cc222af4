(** * CenterFloat: [center], [center_of_mass], [labels_centers], [labels_centers_of_mass]
    (GooseEYE.h:1224-1390) once more, now with [double] as IEEE 754 numbers

    Center.v models the same code with real numbers.  Here every operation rounds, and there are
    infinities, NaNs and two zeros.  Names carry an [f]. *)

From Coq Require Import ZArith List Bool.
From Flocq Require Import Core BinarySingleNaN.
From Verif Require Import Base Cluster Double Center CirclesFloat.
Import ListNotations.
Open Scope Z_scope.

(** What the code calls and IEEE 754 does not fix: [cos], [sin] and [atan2] of the mathematical
    library, and the order in which [xt::sum], [xt::mean] and [xt::average] add. *)
Record trig := mktrig {
  t_cos : double -> double; t_sin : double -> double; t_atan2 : double -> double -> double;
  t_sum : list double -> double
}.

(** [2.0 * pi] (GooseEYE.h:1259, 1265); [xt::numeric_constants<double>::PI] is [M_PI]. *)
Definition two_pi : double := dtimes (dz 2) lit_pi.

(** [xt::mean(x, 0)], one column. *)
Definition fmean_of (T : trig) (x : list double) : double := ddiv (t_sum T x) (dz (lenZ x)).

Fixpoint dmap2 (f : double -> double -> double) (a b : list double) : list double :=
  match a, b with
  | x :: a', y :: b' => f x y :: dmap2 f a' b'
  | _, _ => []
  end.

(** [xt::average(x, weights, 0)], one column. *)
Definition faverage_of (T : trig) (w x : list double) : double := ddiv (t_sum T (dmap2 dtimes x w)) (t_sum T w).

(** One axis of the result (GooseEYE.h:1255-1267, 1284-1296). *)
Definition faxis_center (T : trig) (periodic : bool) (avg : list double -> double) (len : double)
  (x : list double) : double :=
  if negb periodic then avg x
  else
    let theta := map (fun v => ddiv (dtimes two_pi v) len) x in
    let xi_bar := avg (map (t_cos T) theta) in
    let zeta_bar := avg (map (t_sin T) theta) in
    let theta_bar := dplus (t_atan2 T (Bopp zeta_bar) (Bopp xi_bar)) lit_pi in
    ddiv (dtimes len theta_bar) two_pi.

(** Column [k] of the rows [positions]. *)
Definition fcolumn (k : nat) (positions : list (list double)) : list double :=
  map (fun p => nth k p dzero) positions.

(** All axes, the first is number [k]. *)
Fixpoint fall_axes (T : trig) (periodic : bool) (avg : list double -> double) (shape : list double)
  (positions : list (list double)) (k : nat) : list double :=
  match shape with
  | [] => []
  | len :: rest =>
      faxis_center T periodic avg len (fcolumn k positions) :: fall_axes T periodic avg rest positions (S k)
  end.

(** [positions.size() == 0]. *)
Definition fno_positions (shape : list double) (positions : list (list double)) : bool :=
  match shape, positions with
  | [], _ => true
  | _, [] => true
  | _, _ => false
  end.

(** As in Center.v. *)
Definition frows_fit (shape : list double) (positions : list (list double)) : bool :=
  forallb (fun p => Nat.eqb (length p) (length shape)) positions.

(** [center] (GooseEYE.h:1246-1268). *)
Definition fcenter (T : trig) (shape : list double) (positions : list (list double)) (periodic : bool)
  : res (list double) :=
  if negb (frows_fit shape positions) then UB
  else if fno_positions shape positions then Ok (map (fun _ => dzero) shape)
  else Ok (fall_axes T periodic (fmean_of T) shape positions 0).

(** [center_of_mass] (GooseEYE.h:1274-1297). *)
Definition fcenter_of_mass (T : trig) (shape : list double) (positions : list (list double)) (weights : list double)
  (periodic : bool) : res (list double) :=
  if negb (frows_fit shape positions) then UB
  else if fno_positions shape positions then Ok (map (fun _ => dzero) shape)
  else if negb (Nat.eqb (length weights) (length positions)) then Throw
  else Ok (fall_axes T periodic (faverage_of T weights) shape positions 0).

(** [xt::from_indices] to [double] (GooseEYE.h:1312, 1323). *)
Definition fto_double (l : list (list Z)) : list (list double) := map (map dz) l.

(** [labels_centers] (GooseEYE.h:1340-1360): the rows. *)
Definition flabels_centers (T : trig) (asrt : bool) (shape labels names : list Z) (periodic : bool)
  : res (list (list double)) :=
  _ <- assertb asrt (Nat.ltb 0 (length shape)) ;;
  mapM (fun name =>
          let positions := fto_double (where_equal shape labels name) in
          if fno_positions (map dz shape) positions then Ok (map (fun _ => dzero) shape)
          else fcenter T (map dz shape) positions periodic) names.

(** [PositionList::set(condition, w)] (GooseEYE.h:1315-1324): the weights. *)
Definition fweights_at (wshape : list Z) (w : list double) (pos : list (list Z)) : res (list double) :=
  mapM (fun p => vget w (dot p (strides wshape))) pos.

(** [labels_centers_of_mass] (GooseEYE.h:1368-1390). *)
Definition flabels_centers_of_mass (T : trig) (asrt : bool) (shape labels wshape : list Z) (w : list double)
  (names : list Z) (periodic : bool) : res (list (list double)) :=
  _ <- assertb asrt (eqbl shape wshape) ;;
  _ <- assertb asrt (Nat.ltb 0 (length shape)) ;;
  mapM (fun name =>
          let pos := where_equal shape labels name in
          let positions := fto_double pos in
          ws <- fweights_at wshape w pos ;;
          if fno_positions (map dz shape) positions then Ok (map (fun _ => dzero) shape)
          else fcenter_of_mass T (map dz shape) positions ws periodic) names.
