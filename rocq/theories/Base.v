(** * Base: outcomes, checked array access, loops

    Common vocabulary of the model.  Nothing in this file is specific to one function of
    GooseEYE; it fixes how C++ effects are represented. *)

From Coq Require Import ZArith List Bool Lia.
Import ListNotations.
Open Scope Z_scope.

(** Outcome of a call.
    - [Ok a]    normal return;
    - [Throw]   a [GOOSEEYE_ASSERT] fired (config.h:52-92) or the code threw explicitly;
    - [UB]      an unchecked access out of range (xtensor's [operator()], [operator[]],
                [flat] and [std::vector::operator[]] do not check), or another violated
                precondition of the library call being modelled;
    - [NoFuel]  a [while]/[for] loop whose exit condition was not met within the number of
                iterations granted by the model (so: possibly an endless loop). *)
Inductive res (A : Type) : Type :=
| Ok (a : A)
| Throw
| UB
| NoFuel.
Arguments Ok {A} _.
Arguments Throw {A}.
Arguments UB {A}.
Arguments NoFuel {A}.

Definition bind {A B} (x : res A) (f : A -> res B) : res B :=
  match x with
  | Ok a => f a
  | Throw => Throw
  | UB => UB
  | NoFuel => NoFuel
  end.

Notation "x <- e ;; k" := (bind e (fun x => k))
  (at level 61, e at next level, right associativity).

(** [GOOSEEYE_ASSERT(c)] (config.h:83-92): active only when [GOOSEEYE_ENABLE_ASSERT] is
    defined ([asrt = true]). *)
Definition assertb (asrt c : bool) : res unit :=
  if asrt then (if c then Ok tt else Throw) else Ok tt.

Definition lenZ {A} (l : list A) : Z := Z.of_nat (length l).

(** Unchecked element read: out of range is [UB]. *)
Definition vget {A} (l : list A) (i : Z) : res A :=
  if i <? 0 then UB
  else match nth_error l (Z.to_nat i) with
       | Some a => Ok a
       | None => UB
       end.

Fixpoint upd {A} (n : nat) (v : A) (l : list A) : list A :=
  match l, n with
  | [], _ => []
  | _ :: t, O => v :: t
  | x :: t, S m => x :: upd m v t
  end.

(** Unchecked element write: out of range is [UB]. *)
Definition vset {A} (l : list A) (i : Z) (v : A) : res (list A) :=
  if (i <? 0) || (lenZ l <=? i) then UB else Ok (upd (Z.to_nat i) v l).

(** Monadic loop over a list. *)
Fixpoint foldM {A S} (f : S -> A -> res S) (l : list A) (s : S) : res S :=
  match l with
  | [] => Ok s
  | a :: t => s' <- f s a ;; foldM f t s'
  end.

Fixpoint mapM {A B} (f : A -> res B) (l : list A) : res (list B) :=
  match l with
  | [] => Ok []
  | a :: t => b <- f a ;; r <- mapM f t ;; Ok (b :: r)
  end.

(** [zseq a n] is [a, a+1, ..., a+n-1]. *)
Fixpoint zseq (a : Z) (n : nat) : list Z :=
  match n with
  | O => []
  | S m => a :: zseq (a + 1) m
  end.

(** [zrange a b]: the values of [i] in [for (i = a; i < b; ++i)]. *)
Definition zrange (a b : Z) : list Z := zseq a (Z.to_nat (b - a)).

Fixpoint zprod (l : list Z) : Z :=
  match l with [] => 1 | n :: t => n * zprod t end.

Fixpoint zsum (l : list Z) : Z :=
  match l with [] => 0 | n :: t => n + zsum t end.

(** Total read, used in statements and proofs only (never in the model). *)
Definition zn (l : list Z) (i : Z) : Z := nth (Z.to_nat i) l 0.
