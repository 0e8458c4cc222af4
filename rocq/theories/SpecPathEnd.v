(** * SpecPathEnd: which paths along a line end

    The modes [actual] and [full] follow a straight line from pixel boundary to pixel
    boundary. *)

From Coq Require Import ZArith QArith List.
From Verif Require Import Base.
Import ListNotations.
Open Scope Z_scope.

(** The line through [x0] ([t = 0]) and [x1] ([t = 1]) passes through the inside of the pixel
    of the origin, as far as the axes on which [x0] and [x1] differ are concerned. *)
Definition meets_origin (x0 x1 : list Z) : Prop :=
  exists t : Q, Forall2 (fun a b => a <> b ->
    (- (1 # 2) < inject_Z a + inject_Z (b - a) * t < 1 # 2)%Q) x0 x1.

(** Pixel [c], seen from [x0], is touched by the line through [x0] and [x1] at parameter [t],
    along the axes on which [x0] and [x1] differ; along the others [c] is [x0]. *)
Fixpoint touches_from (x0 x1 : list Z) (t : Q) (c : list Z) : Prop :=
  match x0, x1, c with
  | [], [], [] => True
  | a :: x0', b :: x1', n :: c' =>
      (if a =? b then n = a
       else (- (1 # 2) <= inject_Z a + inject_Z (b - a) * t - inject_Z (n - a) <= 1 # 2)%Q) /\
      touches_from x0' x1' t c'
  | _, _, _ => False
  end.
