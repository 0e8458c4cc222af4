(** * Refused: methods as seen by a user who may catch an exception and go on with the object

    [Ensemble.v] and [Cluster.v] give the outcome of a call, and the object after a call that
    returns.  Here also the object that is left behind by a call that throws: every method as a
    sequence of statements acting on the fields, stopped by an exception where it is thrown. *)

From Coq Require Import ZArith QArith Qcanon List Bool.
From Verif Require Import Base Array3 Path Cluster Ensemble EnsemblePy BindingsPy.
Import ListNotations.
Open Scope Z_scope.

(** ** Statements *)

(** A statement that acts on an object of type [S] and gives a value of type [A], or ends the
    call; the object is there in either case.  (After [UB] or [NoFuel] it means nothing.) *)
Definition act (S A : Type) : Type := S -> S * res A.

Definition then_ {S A B} (m : act S A) (k : A -> act S B) : act S B :=
  fun s => let (s', r) := m s in
           match r with Ok a => k a s' | Throw => (s', Throw) | UB => (s', UB) | NoFuel => (s', NoFuel) end.
Notation "x <-- m ;;; k" := (then_ m (fun x => k)) (at level 61, m at next level, right associativity).

(** An expression, without effect on the object; the object itself; an assignment; the end. *)
Definition expr {S A} (r : res A) : act S A := fun s => (s, r).
Definition this_ {S} : act S S := fun s => (s, Ok s).
Definition assign {S} (s' : S) : act S unit := fun _ => (s', Ok tt).
Definition skip {S} : act S unit := fun s => (s, Ok tt).

(** A loop. *)
Fixpoint for_ {S X} (body : X -> act S unit) (l : list X) : act S unit :=
  match l with
  | [] => skip
  | x :: t => _ <-- body x ;;; for_ body t
  end.

(** A piece of code that does not throw (which is proved), as in the other files. *)
Definition code {S} (f : S -> res S) : act S unit :=
  fun s => match f s with Ok s' => (s', Ok tt) | Throw => (s, Throw) | UB => (s, UB) | NoFuel => (s, NoFuel) end.

(** [GOOSEEYE_ASSERT] (config.h:83-92) *)
Definition check {S} (asrt : bool) (c : S -> bool) : act S unit := fun s => (s, assertb asrt (c s)).

(** ** [Ensemble] *)

(** [m_stat = s] *)
Definition lock (s : stat) : act ens unit := e <-- this_ ;;; assign (set_stat e s).
(** [m_first = a], [m_second = a], [m_norm = a] *)
Definition put_first (a : arr Qc) : act ens unit := e <-- this_ ;;; assign (set_data e a (e_second e) (e_norm e)).
Definition put_second (a : arr Qc) : act ens unit := e <-- this_ ;;; assign (set_data e (e_first e) a (e_norm e)).
Definition put_norm (a : arr Qc) : act ens unit := e <-- this_ ;;; assign (set_data e (e_first e) (e_second e) a).
(** [m_first += v], [m_second += v], [m_norm += v] *)
Definition add_first (v : Z -> Z -> Z -> Qc) : act ens unit := e <-- this_ ;;; put_first (plus (e_first e) v).
Definition add_second (v : Z -> Z -> Z -> Qc) : act ens unit := e <-- this_ ;;; put_second (plus (e_second e) v).
Definition add_norm (v : Z -> Z -> Z -> Qc) : act ens unit := e <-- this_ ;;; put_norm (plus (e_norm e) v).

(** [S2] (Ensemble_S2.hpp:14-80) *)
Definition try_S2 (asrt : bool) (f g : img Qc) (fmask gmask : img Z) : act ens unit :=
  _ <-- check asrt (fun _ => shape_eqb (i_shape f) (i_shape g)) ;;;
  _ <-- check asrt (fun _ => shape_eqb (i_shape f) (i_shape fmask)) ;;;
  _ <-- check asrt (fun _ => shape_eqb (i_shape f) (i_shape gmask)) ;;;
  _ <-- check asrt (fun e => Nat.eqb (length (i_shape f)) (length (e_roi e))) ;;;
  _ <-- check asrt (fun _ => binary fmask) ;;;
  _ <-- check asrt (fun _ => binary gmask) ;;;
  _ <-- check asrt (fun e => unlocked e S_S2) ;;;
  _ <-- lock S_S2 ;;;
  e <-- this_ ;;;
  _ <-- expr (roi_ok e) ;;;
  let P := e_pad e in
  f3 <-- expr (to3 f) ;;; g3 <-- expr (to3 g) ;;; fm3 <-- expr (to3 fmask) ;;; gm3 <-- expr (to3 gmask) ;;;
  F <-- expr (pad_mode (e_per e) 0%Qc f3 P) ;;;
  G <-- expr (pad_mode (e_per e) 0%Qc g3 P) ;;;
  let Fmask := pad_mask (e_per e) fm3 P in
  let Gmask := pad_mask (e_per e) gm3 P in
  for_ (fun x =>
    m <-- expr (aget3 Fmask x) ;;;
    if negb (m =? 0) then skip
    else
      Gi <-- expr (window 0%Qc P G x) ;;;
      Gm <-- expr (window 0 P Gmask x) ;;;
      let Gmii a b c := (1 - zq (Gm a b c))%Qc in
      v <-- expr (aget3 F x) ;;;
      _ <-- (if Qceq_b v 0%Qc then skip else add_first (fun a b c => v * Gi a b c * Gmii a b c)%Qc) ;;;
      add_norm Gmii) (positions P F).

(** [C2] (Ensemble_C2.hpp:14-80) *)
Definition try_C2 (asrt : bool) (f g : img Z) (fmask gmask : img Z) : act ens unit :=
  _ <-- check asrt (fun _ => shape_eqb (i_shape f) (i_shape g)) ;;;
  _ <-- check asrt (fun _ => shape_eqb (i_shape f) (i_shape fmask)) ;;;
  _ <-- check asrt (fun _ => shape_eqb (i_shape f) (i_shape gmask)) ;;;
  _ <-- check asrt (fun e => Nat.eqb (length (i_shape f)) (length (e_roi e))) ;;;
  _ <-- check asrt (fun _ => binary fmask) ;;;
  _ <-- check asrt (fun _ => binary gmask) ;;;
  _ <-- check asrt (fun e => unlocked e S_C2) ;;;
  _ <-- lock S_C2 ;;;
  e <-- this_ ;;;
  _ <-- expr (roi_ok e) ;;;
  let P := e_pad e in
  f3 <-- expr (to3 f) ;;; g3 <-- expr (to3 g) ;;; fm3 <-- expr (to3 fmask) ;;; gm3 <-- expr (to3 gmask) ;;;
  F <-- expr (pad_mode (e_per e) 0 f3 P) ;;;
  G <-- expr (pad_mode (e_per e) 0 g3 P) ;;;
  let Fmask := pad_mask (e_per e) fm3 P in
  let Gmask := pad_mask (e_per e) gm3 P in
  for_ (fun x =>
    m <-- expr (aget3 Fmask x) ;;;
    if negb (m =? 0) then skip
    else
      Gi <-- expr (window 0 P G x) ;;;
      Gm <-- expr (window 0 P Gmask x) ;;;
      let Gmii a b c := (1 - zq (Gm a b c))%Qc in
      v <-- expr (aget3 F x) ;;;
      _ <-- (if v =? 0 then skip else add_first (fun a b c => if v =? Gi a b c then Gmii a b c else 0%Qc)) ;;;
      add_norm Gmii) (positions P F).

(** [W2] (Ensemble_W2.hpp:14-72) *)
Definition try_W2 (asrt : bool) (f g : img Qc) (gmask : img Z) : act ens unit :=
  _ <-- check asrt (fun _ => shape_eqb (i_shape f) (i_shape g)) ;;;
  _ <-- check asrt (fun _ => shape_eqb (i_shape f) (i_shape gmask)) ;;;
  _ <-- check asrt (fun e => Nat.eqb (length (i_shape f)) (length (e_roi e))) ;;;
  _ <-- check asrt (fun _ => binary gmask) ;;;
  _ <-- check asrt (fun e => unlocked e S_W2) ;;;
  _ <-- lock S_W2 ;;;
  e <-- this_ ;;;
  _ <-- expr (roi_ok e) ;;;
  let P := e_pad e in
  f3 <-- expr (to3 f) ;;; g3 <-- expr (to3 g) ;;; gm3 <-- expr (to3 gmask) ;;;
  F <-- expr (pad_mode (e_per e) 0%Qc f3 P) ;;;
  G <-- expr (pad_mode (e_per e) 0%Qc g3 P) ;;;
  let Gmask := pad_mask (e_per e) gm3 P in
  for_ (fun x =>
    Gi <-- expr (window 0%Qc P G x) ;;;
    Gm <-- expr (window 0 P Gmask x) ;;;
    let Gmii a b c := (1 - zq (Gm a b c))%Qc in
    v <-- expr (aget3 F x) ;;;
    _ <-- (if Qceq_b v 0%Qc then skip else add_first (fun a b c => v * Gi a b c * Gmii a b c)%Qc) ;;;
    add_norm (fun a b c => v * Gmii a b c)%Qc) (positions P F).

(** [heightheight] (Ensemble_heightheight.hpp:14-76) *)
Definition try_heightheight (asrt : bool) (f : img Qc) (fmask : img Z) : act ens unit :=
  _ <-- check asrt (fun _ => shape_eqb (i_shape f) (i_shape fmask)) ;;;
  _ <-- check asrt (fun e => Nat.eqb (length (i_shape f)) (length (e_roi e))) ;;;
  _ <-- check asrt (fun _ => binary fmask) ;;;
  _ <-- check asrt (fun e => unlocked e S_heightheight) ;;;
  _ <-- lock S_heightheight ;;;
  e <-- this_ ;;;
  _ <-- expr (roi_ok e) ;;;
  let P := e_pad e in
  f3 <-- expr (to3 f) ;;; fm3 <-- expr (to3 fmask) ;;;
  F <-- expr (pad_mode (e_per e) 0%Qc f3 P) ;;;
  let Fmask := pad_mask (e_per e) fm3 P in
  for_ (fun x =>
    m <-- expr (aget3 Fmask x) ;;;
    if negb (m =? 0) then skip
    else
      Fi <-- expr (window 0%Qc P F x) ;;;
      Fm <-- expr (window 0 P Fmask x) ;;;
      let Fmii a b c := (1 - zq (Fm a b c))%Qc in
      v <-- expr (aget3 F x) ;;;
      let sq a b c := ((Fi a b c - v) * (Fi a b c - v))%Qc in
      _ <-- add_first (fun a b c => sq a b c * Fmii a b c)%Qc ;;;
      e <-- this_ ;;;
      _ <-- (if e_var e then add_second (fun a b c => sq a b c * sq a b c * Fmii a b c)%Qc else skip) ;;;
      add_norm Fmii) (positions P F).

(** [m_first(0) += v] and so on: the right-hand side is evaluated first. *)
Definition add_first0 (v : Qc) : act ens unit := e <-- this_ ;;; a <-- expr (plus0 (e_first e) v) ;;; put_first a.
Definition add_second0 (v : Qc) : act ens unit := e <-- this_ ;;; a <-- expr (plus0 (e_second e) v) ;;; put_second a.
Definition add_norm0 (v : Qc) : act ens unit := e <-- this_ ;;; a <-- expr (plus0 (e_norm e) v) ;;; put_norm a.

Definition one_pixel (e : ens) : bool := (d0 (e_first e) =? 1) && (d1 (e_first e) =? 1) && (d2 (e_first e) =? 1).

(** [mean(f)] (Ensemble_mean.hpp:14-25) *)
Definition try_mean (asrt : bool) (f : img Qc) : act ens unit :=
  _ <-- check asrt one_pixel ;;;
  _ <-- check asrt (fun e => unlocked e S_mean) ;;;
  _ <-- lock S_mean ;;;
  _ <-- add_first0 (qsum (i_vals f)) ;;;
  _ <-- add_second0 (qsum (map (fun x => x * x)%Qc (i_vals f))) ;;;
  add_norm0 (zq (lenZ (i_vals f))).

(** The shapes can be broadcast: aligned at the last axis, the lengths of an axis are equal or
    one of them is one. *)
Fixpoint broadcasts (a b : list Z) : bool :=
  match a, b with
  | x :: a', y :: b' => ((x =? y) || (x =? 1) || (y =? 1)) && broadcasts a' b'
  | _, _ => true
  end.
Definition broadcastable (a b : list Z) : bool := broadcasts (rev a) (rev b).

(** The shape of [xt::where(xt::equal(fmask, 0), f, 0.0)] (mean.hpp:39, 42): xtensor throws if the
    shapes cannot be broadcast.  Shapes that are broadcast are not modelled ([UB]). *)
Definition where_shape (f : img Qc) (fmask : img Z) : res unit :=
  if shape_eqb (i_shape f) (i_shape fmask) then Ok tt
  else if broadcastable (i_shape f) (i_shape fmask) then UB else Throw.

(** [mean(f, fmask)] (Ensemble_mean.hpp:27-45) *)
Definition try_mean_masked (asrt : bool) (f : img Qc) (fmask : img Z) : act ens unit :=
  _ <-- check asrt (fun _ => shape_eqb (i_shape f) (i_shape fmask)) ;;;
  _ <-- check asrt (fun _ => binary fmask) ;;;
  _ <-- check asrt one_pixel ;;;
  _ <-- check asrt (fun e => unlocked e S_mean) ;;;
  _ <-- lock S_mean ;;;
  let w (x : Qc * Z) (y : Qc) := if snd x =? 0 then y else 0%Qc in
  let fm := combine (i_vals f) (i_vals fmask) in
  _ <-- expr (where_shape f fmask) ;;;
  _ <-- add_first0 (qsum (map (fun x => w x (fst x)) fm)) ;;;
  _ <-- add_second0 (qsum (map (fun x => w x (fst x * fst x)%Qc) fm)) ;;;
  add_norm0 (zq (zsum (map (fun m => 1 - m) (i_vals fmask)))).

(** [L] (Ensemble_L.hpp:14-91) *)
Definition try_L (asrt : bool) (f : img Z) (mode : path_mode) : act ens unit :=
  _ <-- check asrt (fun e => Nat.eqb (length (i_shape f)) (length (e_roi e))) ;;;
  _ <-- check asrt (fun e => unlocked e S_L) ;;;
  _ <-- lock S_L ;;;
  e <-- this_ ;;;
  _ <-- expr (roi_ok e) ;;;
  let P := e_pad e in
  f3 <-- expr (to3 f) ;;;
  F <-- expr (pad_mode (e_per e) 0 f3 P) ;;;
  for_ (fun s => code (fun e => L_stamp P F (lenZ (i_vals f)) mode e s))
       (stamps (d0 (e_first e)) (d1 (e_first e)) (d2 (e_first e)) P).

(** [W2c] (Ensemble_W2c.hpp:14-119) *)
Definition try_W2c (asrt : bool) (clusters centers : img Z) (f : img Qc) (fmask : img Z) (mode : path_mode) : act ens unit :=
  _ <-- check asrt (fun _ => shape_eqb (i_shape f) (i_shape clusters)) ;;;
  _ <-- check asrt (fun _ => shape_eqb (i_shape f) (i_shape centers)) ;;;
  _ <-- check asrt (fun _ => shape_eqb (i_shape f) (i_shape fmask)) ;;;
  _ <-- check asrt (fun e => Nat.eqb (length (i_shape f)) (length (e_roi e))) ;;;
  _ <-- check asrt (fun _ => binary fmask) ;;;
  _ <-- check asrt (fun e => unlocked e S_W2c) ;;;
  _ <-- lock S_W2c ;;;
  e <-- this_ ;;;
  _ <-- expr (roi_ok e) ;;;
  let P := e_pad e in
  f3 <-- expr (to3 f) ;;; fm3 <-- expr (to3 fmask) ;;; c3 <-- expr (to3 clusters) ;;; ce3 <-- expr (to3 centers) ;;;
  F <-- expr (pad_mode (e_per e) 0%Qc f3 P) ;;;
  Fm <-- expr (pad_mode (e_per e) 0 fm3 P) ;;;
  C <-- expr (pad_mode (e_per e) 0 c3 P) ;;;
  Ce <-- expr (pad_mode (e_per e) 0 ce3 P) ;;;
  for_ (fun s => code (fun e => W2c_stamp P C Ce Fm F mode e s))
       (stamps (d0 (e_first e)) (d1 (e_first e)) (d2 (e_first e)) P).

(** All calls that add a realization; cf. [Ensemble.add] for the overloads without masks. *)
Definition try_add (asrt : bool) (c : call) : act ens unit :=
  match c with
  | Mean f => try_mean asrt f
  | MeanMasked f m => try_mean_masked asrt f m
  | CallS2 f g m => try_S2 asrt f g (fst (mask2 f m)) (snd (mask2 f m))
  | CallC2 f g m => try_C2 asrt f g (fst (mask2 f m)) (snd (mask2 f m))
  | CallW2 w f m => try_W2 asrt w f (mask1 w m)
  | CallW2c c ce f m mode => try_W2c asrt c ce f (mask1 f m) mode
  | CallHH f m => try_heightheight asrt f (mask1 f m)
  | CallL f mode => try_L asrt f mode
  end.

(** The same from Python: the arguments are converted before the method is entered (EnsemblePy.v). *)
Definition try_py_add (asrt : bool) (c : method * list array * path_mode) : act ens unit :=
  let '(m, args, mode) := c in
  c <-- expr (py_call m args mode) ;;; try_add asrt c.

(** ** [ClusterLabeller] *)

(** [add_image] (GooseEYE.h:1025-1039) *)
Definition try_add_image (asrt : bool) (g : cfg) (ishape img : list Z) : act st unit :=
  _ <-- check asrt (fun _ => eqbl ishape (g_shape g)) ;;;
  _ <-- for_ (fun idx =>
    v <-- expr (vget img idx) ;;;
    if v =? 0 then skip
    else
      s <-- this_ ;;;
      l <-- expr (vget (c_label s) idx) ;;;
      if negb (l =? 0) then skip else code (fun s => label_impl g s idx)) (zseq 0 (length img)) ;;;
  code apply_merge.

(** [add_points] (GooseEYE.h:1061-1082) *)
Definition try_add_points (asrt : bool) (g : cfg) (idx : list Z) : act st unit :=
  _ <-- check asrt (fun s => legal_points s idx) ;;;
  _ <-- for_ (fun i =>
    s <-- this_ ;;;
    l <-- expr (vget (c_label s) i) ;;;
    if negb (l =? 0) then skip else code (fun s => label_impl g s i)) idx ;;;
  code apply_merge.

(** [add_sequence] (GooseEYE.h:1093-1129); the loops as in [Cluster.v]. *)
Definition try_add_sequence (asrt : bool) (g : cfg) (idx : list Z) : act st (list Z) :=
  _ <-- check asrt (fun _ => 1 <=? lenZ idx) ;;;
  _ <-- check asrt (fun s => legal_points s idx) ;;;
  s <-- this_ ;;;
  r <-- expr (seq_outer (2 * length idx + 2) g s idx 0 []) ;;;
  _ <-- assign (fst r) ;;;
  _ <-- code apply_merge ;;;
  expr (Ok (snd r ++ [lenZ idx])).

(** One call: what it returns ([[]] for the [void] functions) *)
Definition try_step (asrt : bool) (g : cfg) (o : op) : act st (list Z) :=
  match o with
  | AddImage sh img => _ <-- try_add_image asrt g sh img ;;; expr (Ok [])
  | AddPoints idx => _ <-- try_add_points asrt g idx ;;; expr (Ok [])
  | AddSequence idx => try_add_sequence asrt g idx
  | Prune => _ <-- code prune ;;; expr (Ok [])
  | Reset => s <-- this_ ;;; _ <-- assign (reset s) ;;; expr (Ok [])
  end.

(** The same from Python (BindingsPy.v) *)
Definition try_py_step (asrt : bool) (g : cfg) (o : py_op) : act st (list Z) :=
  o <-- expr (py_load_op g o) ;;; try_step asrt g o.
