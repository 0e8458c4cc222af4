(** * StructureFloat: [Structure] (python/GooseEYE/__init__.py:34-277) once more, now with
    floating point numbers as IEEE 754 numbers

    Structure.v models the same code with real numbers.  Here the results are rounded, and the
    entries that are never filled are NaNs.  What [np.fft.fft] and [np.fft.fft2] return is an
    argument: their algorithm is not modelled.  Names carry an [f]. *)

From Coq Require Import ZArith List Bool.
From Flocq Require Import Core BinarySingleNaN.
From Verif Require Import Base Double Structure.
Import ListNotations.
Open Scope Z_scope.

(** [complex128]: the real and the imaginary part *)
Definition fcomplex : Type := (double * double)%type.

(** The real part of [x * y]: NumPy computes [re * re - im * im], rounding each operation, or
    fuses one of the products with the subtraction. *)
Definition dfma : double -> double -> double -> double := @Bfma 53 1024 precision exponent mode_NE.

Definition plain_product (x y : fcomplex) : double :=
  dminus (dtimes (fst x) (fst y)) (dtimes (snd x) (snd y)).
Definition fused_left (x y : fcomplex) : double :=
  dfma (fst x) (fst y) (Bopp (dtimes (snd x) (snd y))).
Definition fused_right (x y : fcomplex) : double :=
  dfma (Bopp (snd x)) (snd y) (dtimes (fst x) (fst y)).

(** What is assigned to an array of integers is truncated (as [cast] of Structure.v).  Numbers that
    do not fit the type of the integers are not modelled. *)
Definition fcast (dt : dtype) (x : double) : double :=
  match dt with Float => x | Integer => dz (Btrunc x) end.

Section Product.
  (** The real part of a product, and the dtype of the sample. *)
  Variable P : fcomplex -> fcomplex -> double.
  Variable dt : dtype.

  (** [np.real(v * w)], as stored *)
  Definition fvmul (v w : vec fcomplex) : res (vec double) :=
    if vlen v =? vlen w then Ok (mkvec (vlen v) (fun i => fcast dt (P (vat v i) (vat w i)))) else Throw.
  Definition fmmul (M N : mat fcomplex) : res (mat double) :=
    if (mrows M =? mrows N) && (mcols M =? mcols N)
    then Ok (mkmat (mrows M) (mcols M) (fun i j => fcast dt (P (mat_at M i j) (mat_at N i j)))) else Throw.

  (** The one-dimensional case (__init__.py:250-257, 277); [hat] is what [np.fft.fft] returned. *)
  Definition fsample1 (n : Z) (hat : Z -> fcomplex) (junk : Z -> double) : res (vec double) :=
    if n <? 1 then Throw else
    let hat := mkvec n hat in
    let e := stop_of n in
    let s := start_of n in
    let ret := mkvec n junk in
    ret <- vput ret 0 (fcast dt (P (vat hat 0) (vat hat 0))) ;;
    low <- fvmul (vslice 1 e hat) (vflip (vslice s n hat)) ;;
    ret <- vassign ret 1 e low ;;
    ret <- vassign ret s n (vflip (vslice 1 e ret)) ;;
    Ok (mkvec n (fun k => ddiv (vat ret k) (dz n))).

  (** The two-dimensional case (__init__.py:259-272, 277). *)
  Definition fsample2 (n m : Z) (hat : Z -> Z -> fcomplex) (junk : Z -> Z -> double) : res (mat double) :=
    if (n <? 1) || (m <? 1) then Throw else
    let hat := mkmat n m hat in
    let er := stop_of n in
    let ec := stop_of m in
    let sr := start_of n in
    let sc := start_of m in
    let ret := mkmat n m junk in
    ret <- massign_row ret 0 0 1 (mkvec 1 (fun _ => fcast dt (P (mat_at hat 0 0) (mat_at hat 0 0)))) ;;
    v <- fvmul (vslice 1 ec (mrow hat 0)) (vflip (vslice sc m (mrow hat 0))) ;;
    ret <- massign_row ret 0 1 ec v ;;
    v <- fvmul (vslice 1 er (mcol hat 0)) (vflip (vslice sr n (mcol hat 0))) ;;
    ret <- massign_col ret 1 er 0 v ;;
    M <- fmmul (mslice 1 er 1 ec hat) (mflip (mslice sr n sc m hat)) ;;
    ret <- massign ret 1 er 1 ec M ;;
    ret <- massign ret sr n sc m (mflip (mslice 1 er 1 ec ret)) ;;
    M <- fmmul (mslice 1 er 1 ec hat) (mflip1 (mslice 1 er sc m hat)) ;;
    ret <- massign ret 1 er sc m M ;;
    M <- fmmul (mslice 1 er 1 ec hat) (mflip0 (mslice sr n 1 ec hat)) ;;
    ret <- massign ret sr n 1 ec M ;;
    Ok (mkmat n m (fun i j => ddiv (mat_at ret i j) (dz (n * m)))).
End Product.

(** [shape], [first] and [norm] of [enstat.static] *)
Record fstat := mkfstat { fst_shape : list Z; fst_first : list Z -> double; fst_norm : Z }.

(** [_allocate] (__init__.py:157-182), for [first] *)
Definition fallocate (shape : list Z) : res fstat :=
  match shape with
  | [n] => Ok (mkfstat shape
      (fun i => if (n mod 2 =? 0) && (nth 0 i 0 =? n / 2) then B754_nan else dzero) 0)
  | [n; m] =>
      if Bool.eqb (n mod 2 =? 0) (m mod 2 =? 0)
      then Ok (mkfstat shape
        (fun i => if (n mod 2 =? 0) && ((nth 0 i 0 =? n / 2) || (nth 1 i 0 =? m / 2))
                  then B754_nan else dzero) 0)
      else Throw
  | _ => Throw
  end.

(** [super().add_sample] (__init__.py:277), as [accumulate] of Structure.v *)
Definition faccumulate (st : option fstat) (shape : list Z) (x : list Z -> double) : res fstat :=
  st <- match st with Some st => Ok st | None => fallocate shape end ;;
  if shape_eqb (fst_shape st) shape
  then Ok (mkfstat (fst_shape st) (fun i => dplus (fst_first st i) (x i)) (fst_norm st + 1))
  else Throw.

(** A sample: its dtype, the transform that NumPy computed of it, and the uninitialised memory *)
Inductive fdata :=
| FSample1 (dt : dtype) (n : Z) (hat : Z -> fcomplex) (junk : Z -> double)
| FSample2 (dt : dtype) (n m : Z) (hat : Z -> Z -> fcomplex) (junk : Z -> Z -> double).

(** [add_sample] (__init__.py:243-277) *)
Definition fadd_sample (P : fcomplex -> fcomplex -> double) (st : option fstat) (d : fdata) : res fstat :=
  match d with
  | FSample1 dt n hat junk =>
      r <- fsample1 P dt n hat junk ;;
      faccumulate st [n] (fun i => vat r (nth 0 i 0))
  | FSample2 dt n m hat junk =>
      r <- fsample2 P dt n m hat junk ;;
      faccumulate st [n; m] (fun i => mat_at r (nth 0 i 0) (nth 1 i 0))
  end.

Definition fadd_samples (P : fcomplex -> fcomplex -> double) (st : option fstat) (l : list fdata) : res (option fstat) :=
  foldM (fun st d => st' <- fadd_sample P st d ;; Ok (Some st')) l st.

(** [mean()] of [enstat.static]: the sum divided by the number of samples *)
Definition fmean (st : fstat) (i : list Z) : double := ddiv (fst_first st i) (dz (fst_norm st)).
