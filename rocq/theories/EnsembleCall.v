(** * EnsembleCall: names of arguments and kinds of arguments in the Python bindings of
    [Ensemble] and of its wrappers (python/main.cpp:264-418, 452-688)

    EnsemblePy.v models what arrays become; here the calls have positional and named arguments
    of all kinds.  As in BindingsPy.v, [xt::pyarray] accepts numbers and booleans with
    conversion (they become arrays without axes), and [bool] accepts numbers and, with
    conversion, arrays of one element.  Not modelled: modes or lists as arrays, arrays as [roi],
    arrays without elements as [bool]. *)

From Coq Require Import ZArith QArith Qcanon List Bool String.
From Verif Require Import Base Path Ensemble EnsemblePy BindingsCall.
Import ListNotations.
Open Scope Z_scope.

Inductive ptype := TyRoi | TyInt | TyDouble | TyMode | TyFlag.
Inductive loaded := LRoi (l : list Z) | LArg (a : arg) | LMode (m : path_mode) | LFlag (b : bool).

(** [None]: the argument does not load. *)
Definition accept (convert : bool) (t : ptype) (x : parg) : option (res loaded) :=
  match t, x with
  | TyRoi, PShape l => if forallb (fun n => 0 <=? n) l then Some (Ok (LRoi l)) else None
  | TyInt, PArray a => if convert || exact_match PInt a then Some (v <- load PInt a ;; Ok (LArg v)) else None
  | TyInt, PNum n => if convert && int_range n then Some (Ok (LArg (AInt (mkimg [] [n])))) else None
  | TyInt, PFlag b => if convert then Some (Ok (LArg (AInt (mkimg [] [Z.b2z b])))) else None
  | TyDouble, PArray a => if convert || exact_match PDouble a then Some (v <- load PDouble a ;; Ok (LArg v)) else None
  | TyDouble, PNum n => if convert then Some (Ok (LArg (ADouble (mkimg [] [zq n])))) else None
  | TyDouble, PFlag b => if convert then Some (Ok (LArg (ADouble (mkimg [] [zq (Z.b2z b)])))) else None
  | TyMode, PMode m => Some (Ok (LMode m))
  | TyFlag, PFlag b => Some (Ok (LFlag b))
  | TyFlag, PNum n => if convert then Some (Ok (LFlag (negb (n =? 0)))) else None
  | TyFlag, PArray a =>
      if convert then match a_vals a with [q] => Some (Ok (LFlag (negb (Qceq_b q 0)))) | _ => None end else None
  | _, _ => None
  end.

Fixpoint accept_all (convert : bool) (ts : list ptype) (l : list parg) : option (res (list loaded)) :=
  match ts, l with
  | [], [] => Some (Ok [])
  | t :: ts', x :: l' =>
      match accept convert t x, accept_all convert ts' l' with
      | Some v, Some vs => Some (v <- v ;; vs <- vs ;; Ok (v :: vs))
      | _, _ => None
      end
  | _, _ => None
  end.

(** An overload: names and defaults, types, and what it does. *)
Record eoverload (A : Type) := mkeo { eo_names : signature; eo_types : list ptype; eo_run : list loaded -> res A }.
Arguments mkeo {A}. Arguments eo_names {A}. Arguments eo_types {A}. Arguments eo_run {A}.

Definition attempt {A} (convert : bool) (pos : list parg) (kw : list (string * parg)) (o : eoverload A) : option (res A) :=
  match receive (eo_names o) pos kw with
  | None => None
  | Some l => match accept_all convert (eo_types o) l with None => None | Some vs => Some (vs <- vs ;; eo_run o vs) end
  end.

Fixpoint first_of {A B} (f : A -> option B) (l : list A) : option B :=
  match l with [] => None | x :: l' => match f x with Some y => Some y | None => first_of f l' end end.

(** Two passes; [TypeError] if no overload fits. *)
Definition choose {A} (os : list (eoverload A)) (pos : list parg) (kw : list (string * parg)) : res A :=
  match first_of (attempt false pos kw) os with
  | Some r => r
  | None => match first_of (attempt true pos kw) os with Some r => r | None => Throw end
  end.

Local Open Scope string_scope.

(** The methods of [Ensemble]. *)
Definition methods (m : method) : list (eoverload call) :=
  match m with
  | M_mean =>
      [ (* 264-268 *) mkeo [("f", None)] [TyDouble]
          (fun l => match l with [LArg (ADouble f)] => Ok (Mean f) | _ => UB end);
        (* 270-275 *) mkeo [("f", None); ("fmask", None)] [TyDouble; TyInt]
          (fun l => match l with [LArg (ADouble f); LArg (AInt fm)] => Ok (MeanMasked f fm) | _ => UB end) ]
  | M_S2 =>
      [ (* 279-284 *) mkeo [("f", None); ("g", None)] [TyInt; TyInt]
          (fun l => match l with [LArg (AInt f); LArg (AInt g)] => Ok (CallS2 (widen f) (widen g) None) | _ => UB end);
        (* 286-291 *) mkeo [("f", None); ("g", None)] [TyDouble; TyDouble]
          (fun l => match l with [LArg (ADouble f); LArg (ADouble g)] => Ok (CallS2 f g None) | _ => UB end);
        (* 293-304 *) mkeo [("f", None); ("g", None); ("fmask", None); ("gmask", None)] [TyDouble; TyDouble; TyInt; TyInt]
          (fun l => match l with [LArg (ADouble f); LArg (ADouble g); LArg (AInt fm); LArg (AInt gm)] => Ok (CallS2 f g (Some (fm, gm))) | _ => UB end) ]
  | M_heightheight =>
      [ (* 308-312 *) mkeo [("f", None)] [TyDouble]
          (fun l => match l with [LArg (ADouble f)] => Ok (CallHH f None) | _ => UB end);
        (* 314-319 *) mkeo [("f", None); ("fmask", None)] [TyDouble; TyInt]
          (fun l => match l with [LArg (ADouble f); LArg (AInt fm)] => Ok (CallHH f (Some fm)) | _ => UB end) ]
  | M_C2 =>
      [ (* 323-328 *) mkeo [("f", None); ("g", None)] [TyInt; TyInt]
          (fun l => match l with [LArg (AInt f); LArg (AInt g)] => Ok (CallC2 f g None) | _ => UB end);
        (* 330-341 *) mkeo [("f", None); ("g", None); ("fmask", None); ("gmask", None)] [TyInt; TyInt; TyInt; TyInt]
          (fun l => match l with [LArg (AInt f); LArg (AInt g); LArg (AInt fm); LArg (AInt gm)] => Ok (CallC2 f g (Some (fm, gm))) | _ => UB end) ]
  | M_W2 =>
      [ (* 345-350 *) mkeo [("w", None); ("f", None)] [TyInt; TyInt]
          (fun l => match l with [LArg (AInt w); LArg (AInt f)] => Ok (CallW2 (widen w) (widen f) None) | _ => UB end);
        (* 352-357 *) mkeo [("w", None); ("f", None)] [TyDouble; TyDouble]
          (fun l => match l with [LArg (ADouble w); LArg (ADouble f)] => Ok (CallW2 w f None) | _ => UB end);
        (* 359-368 *) mkeo [("w", None); ("f", None); ("fmask", None)] [TyDouble; TyDouble; TyInt]
          (fun l => match l with [LArg (ADouble w); LArg (ADouble f); LArg (AInt fm)] => Ok (CallW2 w f (Some fm)) | _ => UB end) ]
  | M_W2c =>
      [ (* 372-382 *) mkeo [("clusters", None); ("centers", None); ("f", None); ("mode", Some (PMode Bresenham))] [TyInt; TyInt; TyInt; TyMode]
          (fun l => match l with [LArg (AInt c); LArg (AInt ce); LArg (AInt f); LMode mode] => Ok (CallW2c c ce (widen f) None mode) | _ => UB end);
        (* 384-395 *) mkeo [("clusters", None); ("centers", None); ("f", None); ("mode", Some (PMode Bresenham))] [TyInt; TyInt; TyDouble; TyMode]
          (fun l => match l with [LArg (AInt c); LArg (AInt ce); LArg (ADouble f); LMode mode] => Ok (CallW2c c ce f None mode) | _ => UB end);
        (* 397-410 *) mkeo [("clusters", None); ("centers", None); ("f", None); ("fmask", None); ("mode", Some (PMode Bresenham))] [TyInt; TyInt; TyDouble; TyInt; TyMode]
          (fun l => match l with [LArg (AInt c); LArg (AInt ce); LArg (ADouble f); LArg (AInt fm); LMode mode] => Ok (CallW2c c ce f (Some fm) mode) | _ => UB end) ]
  | M_L =>
      [ (* 414-418 *) mkeo [("f", None); ("mode", Some (PMode Bresenham))] [TyInt; TyMode]
          (fun l => match l with [LArg (AInt f); LMode mode] => Ok (CallL f mode) | _ => UB end) ]
  end.

Definition py_method (asrt : bool) (e : ens) (m : method) (pos : list parg) (kw : list (string * parg)) : res ens :=
  c <- choose (methods m) pos kw ;; add asrt e c.

(** The wrappers; there is none for [mean]. *)
Definition wrappers (m : method) : list (eoverload (list Z * bool * call)) :=
  match m with
  | M_mean => []
  | M_S2 =>
      [ (* 452-465 *) mkeo [("roi", None); ("f", None); ("g", None); ("periodic", Some (PFlag true))] [TyRoi; TyInt; TyInt; TyFlag]
          (fun l => match l with [LRoi r; LArg (AInt f); LArg (AInt g); LFlag p] => Ok (r, p, CallS2 (widen f) (widen g) None) | _ => UB end);
        (* 467-480 *) mkeo [("roi", None); ("f", None); ("g", None); ("periodic", Some (PFlag true))] [TyRoi; TyDouble; TyDouble; TyFlag]
          (fun l => match l with [LRoi r; LArg (ADouble f); LArg (ADouble g); LFlag p] => Ok (r, p, CallS2 f g None) | _ => UB end);
        (* 482-499 *) mkeo [("roi", None); ("f", None); ("g", None); ("fmask", None); ("gmask", None); ("periodic", Some (PFlag true))]
          [TyRoi; TyDouble; TyDouble; TyInt; TyInt; TyFlag]
          (fun l => match l with [LRoi r; LArg (ADouble f); LArg (ADouble g); LArg (AInt fm); LArg (AInt gm); LFlag p] => Ok (r, p, CallS2 f g (Some (fm, gm))) | _ => UB end) ]
  | M_C2 =>
      [ (* 503-516 *) mkeo [("roi", None); ("f", None); ("g", None); ("periodic", Some (PFlag true))] [TyRoi; TyInt; TyInt; TyFlag]
          (fun l => match l with [LRoi r; LArg (AInt f); LArg (AInt g); LFlag p] => Ok (r, p, CallC2 f g None) | _ => UB end);
        (* 518-535 *) mkeo [("roi", None); ("f", None); ("g", None); ("fmask", None); ("gmask", None); ("periodic", Some (PFlag true))]
          [TyRoi; TyInt; TyInt; TyInt; TyInt; TyFlag]
          (fun l => match l with [LRoi r; LArg (AInt f); LArg (AInt g); LArg (AInt fm); LArg (AInt gm); LFlag p] => Ok (r, p, CallC2 f g (Some (fm, gm))) | _ => UB end) ]
  | M_W2 =>
      [ (* 539-552 *) mkeo [("roi", None); ("w", None); ("f", None); ("periodic", Some (PFlag true))] [TyRoi; TyInt; TyInt; TyFlag]
          (fun l => match l with [LRoi r; LArg (AInt w); LArg (AInt f); LFlag p] => Ok (r, p, CallW2 (widen w) (widen f) None) | _ => UB end);
        (* 554-567 *) mkeo [("roi", None); ("w", None); ("f", None); ("periodic", Some (PFlag true))] [TyRoi; TyDouble; TyDouble; TyFlag]
          (fun l => match l with [LRoi r; LArg (ADouble w); LArg (ADouble f); LFlag p] => Ok (r, p, CallW2 w f None) | _ => UB end);
        (* 569-584 *) mkeo [("roi", None); ("w", None); ("f", None); ("fmask", None); ("periodic", Some (PFlag true))] [TyRoi; TyDouble; TyDouble; TyInt; TyFlag]
          (fun l => match l with [LRoi r; LArg (ADouble w); LArg (ADouble f); LArg (AInt fm); LFlag p] => Ok (r, p, CallW2 w f (Some fm)) | _ => UB end) ]
  | M_W2c =>
      [ (* 588-605 *) mkeo [("roi", None); ("clusters", None); ("centers", None); ("f", None); ("mode", Some (PMode Bresenham)); ("periodic", Some (PFlag true))]
          [TyRoi; TyInt; TyInt; TyInt; TyMode; TyFlag]
          (fun l => match l with [LRoi r; LArg (AInt c); LArg (AInt ce); LArg (AInt f); LMode mode; LFlag p] => Ok (r, p, CallW2c c ce (widen f) None mode) | _ => UB end);
        (* 607-624 *) mkeo [("roi", None); ("clusters", None); ("centers", None); ("f", None); ("mode", Some (PMode Bresenham)); ("periodic", Some (PFlag true))]
          [TyRoi; TyInt; TyInt; TyDouble; TyMode; TyFlag]
          (fun l => match l with [LRoi r; LArg (AInt c); LArg (AInt ce); LArg (ADouble f); LMode mode; LFlag p] => Ok (r, p, CallW2c c ce f None mode) | _ => UB end);
        (* 626-645 *) mkeo [("roi", None); ("clusters", None); ("centers", None); ("f", None); ("fmask", None); ("mode", Some (PMode Bresenham)); ("periodic", Some (PFlag true))]
          [TyRoi; TyInt; TyInt; TyDouble; TyInt; TyMode; TyFlag]
          (fun l => match l with [LRoi r; LArg (AInt c); LArg (AInt ce); LArg (ADouble f); LArg (AInt fm); LMode mode; LFlag p] => Ok (r, p, CallW2c c ce f (Some fm) mode) | _ => UB end) ]
  | M_heightheight =>
      [ (* 649-658 *) mkeo [("roi", None); ("f", None); ("periodic", Some (PFlag true))] [TyRoi; TyDouble; TyFlag]
          (fun l => match l with [LRoi r; LArg (ADouble f); LFlag p] => Ok (r, p, CallHH f None) | _ => UB end);
        (* 660-673 *) mkeo [("roi", None); ("f", None); ("fmask", None); ("periodic", Some (PFlag true))] [TyRoi; TyDouble; TyInt; TyFlag]
          (fun l => match l with [LRoi r; LArg (ADouble f); LArg (AInt fm); LFlag p] => Ok (r, p, CallHH f (Some fm)) | _ => UB end) ]
  | M_L =>
      [ (* 675-688 *) mkeo [("roi", None); ("f", None); ("periodic", Some (PFlag true)); ("mode", Some (PMode Bresenham))] [TyRoi; TyInt; TyFlag; TyMode]
          (fun l => match l with [LRoi r; LArg (AInt f); LFlag p; LMode mode] => Ok (r, p, CallL f mode) | _ => UB end) ]
  end.

Definition py_wrapper (asrt : bool) (m : method) (pos : list parg) (kw : list (string * parg)) : res (list value) :=
  x <- choose (wrappers m) pos kw ;; let '(roi, per, c) := x in single asrt roi per c.
