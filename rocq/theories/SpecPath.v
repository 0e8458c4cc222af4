(** * SpecPath: what a path between two pixels is

    A path is a list of pixels, a pixel is the list of its coordinates. *)

From Coq Require Import ZArith QArith List.
From Verif Require Import Base.
Import ListNotations.
Open Scope Z_scope.

(** Largest coordinate difference. *)
Fixpoint span (x0 x1 : list Z) : Z :=
  match x0, x1 with
  | a :: x0', b :: x1' => Z.max (Z.abs (b - a)) (span x0' x1')
  | _, _ => 0
  end.

(** Sum of the coordinate differences. *)
Fixpoint manhattan (x0 x1 : list Z) : Z :=
  match x0, x1 with
  | a :: x0', b :: x1' => Z.abs (b - a) + manhattan x0' x1'
  | _, _ => 0
  end.

(** Every coordinate of [y] is that of [x], or one closer to [goal]. *)
Fixpoint closer (goal x y : list Z) : Prop :=
  match goal, x, y with
  | [], [], [] => True
  | g :: goal', a :: x', b :: y' => (b = a \/ (a <> g /\ b = a + Z.sgn (g - a))) /\ closer goal' x' y'
  | _, _, _ => False
  end.

(** At least one coordinate of [y] is one closer to [goal], the others are those of [x]. *)
Definition some_closer (goal x y : list Z) : Prop := closer goal x y /\ x <> y.

(** Exactly one coordinate of [y] differs from [x]; it is one closer to [goal]. *)
Fixpoint one_closer (goal x y : list Z) : Prop :=
  match goal, x, y with
  | g :: goal', a :: x', b :: y' =>
      (b = a /\ one_closer goal' x' y') \/
      (a <> g /\ b = a + Z.sgn (g - a) /\ x' = y')
  | _, _, _ => False
  end.

(** Consecutive elements are related. *)
Fixpoint consecutive (R : list Z -> list Z -> Prop) (l : list (list Z)) : Prop :=
  match l with
  | a :: ((b :: _) as l') => R a b /\ consecutive R l'
  | _ => True
  end.

(** [l] starts at [x0], ends at [x1], and each pixel follows from the one before by [R]. *)
Definition path_between (R : list Z -> list Z -> Prop) (x0 x1 : list Z) (l : list (list Z)) : Prop :=
  hd_error l = Some x0 /\ last l [] = x1 /\ consecutive R l.

(** The point at parameter [t] of the line from [x0] ([t = 0]) to [x1] ([t = 1]) is within
    half a pixel of [c] along every axis (so: inside or on the boundary of the pixel). *)
Fixpoint touches (x0 x1 : list Z) (t : Q) (c : list Z) : Prop :=
  match x0, x1, c with
  | [], [], [] => True
  | a :: x0', b :: x1', n :: c' =>
      (- (1 # 2) <= inject_Z a + inject_Z (b - a) * t - inject_Z n <= 1 # 2)%Q /\ touches x0' x1' t c'
  | _, _, _ => False
  end.

(** The same, strictly inside the pixel. *)
Fixpoint pierces (x0 x1 : list Z) (t : Q) (c : list Z) : Prop :=
  match x0, x1, c with
  | [], [], [] => True
  | a :: x0', b :: x1', n :: c' =>
      (- (1 # 2) < inject_Z a + inject_Z (b - a) * t - inject_Z n < 1 # 2)%Q /\ pierces x0' x1' t c'
  | _, _, _ => False
  end.

(** The line through [x0] and [x1], followed along the axes on which they differ, passes
    through the origin (for instance: [x0] is the origin, or they differ along one axis). *)
Definition through_origin (x0 x1 : list Z) : Prop :=
  exists w : Q, Forall2 (fun a b => a <> b -> (inject_Z a == w * inject_Z (b - a))%Q) x0 x1.

(** Shift a pixel. *)
Definition shift (x : list Z) (d : list Z) : list Z := map (fun ab => fst ab + snd ab) (combine x d).
Definition diff (x1 x0 : list Z) : list Z := map (fun ab => fst ab - snd ab) (combine x1 x0).
