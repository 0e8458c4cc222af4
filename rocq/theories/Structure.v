(** * Structure: model of [Structure] (python/GooseEYE/__init__.py:34-277)

    NumPy arrays are a shape and a function from indices; of NumPy are modelled slicing,
    [flip], products and assignment of arrays of equal shape (arrays of different shape raise;
    NumPy's broadcasting of arrays of length one is not modelled: [C52] and [C53] show that
    shapes always agree), [fft] and [fft2] by their definition as sums.  Data are real numbers, or
    integers without bound (the results are then stored in an array of integers, see [cast]).
    Of the base class [enstat.static] the sum and the number of samples are modelled. *)

From Coq Require Import ZArith List Bool Reals.
From Verif Require Import Base.
Import ListNotations.
Open Scope Z_scope.

(** ** Complex numbers *)
Definition complex : Type := (R * R)%type.
Definition cadd (x y : complex) : complex := ((fst x + fst y)%R, (snd x + snd y)%R).
Definition cscale (a : R) (x : complex) : complex := ((a * fst x)%R, (a * snd x)%R).
Definition cmul (x y : complex) : complex :=
  ((fst x * fst y - snd x * snd y)%R, (fst x * snd y + snd x * fst y)%R).
(** exp(-i t) *)
Definition cexpm (t : R) : complex := (cos t, (- sin t)%R).
Definition csum (f : Z -> complex) (n : Z) : complex :=
  fold_right (fun k acc => cadd (f k) acc) (0%R, 0%R) (zrange 0 n).

(** [np.fft.fft(data)]: entry [k] is the sum over [j] of [data[j] exp(-2 pi i j k / n)]. *)
Definition fft (n : Z) (u : Z -> R) (k : Z) : complex :=
  csum (fun j => cscale (u j) (cexpm (2 * PI * IZR (j * k) / IZR n))) n.

(** [np.fft.fft2(data)]. *)
Definition fft2 (n m : Z) (u : Z -> Z -> R) (k l : Z) : complex :=
  csum (fun a => csum (fun b => cscale (u a b)
    (cexpm (2 * PI * (IZR (a * k) / IZR n + IZR (b * l) / IZR m)))) m) n.

(** ** Vectors *)
Record vec (A : Type) := mkvec { vlen : Z; vat : Z -> A }.
Arguments mkvec {A}. Arguments vlen {A}. Arguments vat {A}.

(** [v[a:b]] with [0 <= a]: bounds beyond the length are cut off. *)
Definition vslice {A} (a b : Z) (v : vec A) : vec A :=
  let a' := Z.min a (vlen v) in let b' := Z.min b (vlen v) in
  mkvec (Z.max 0 (b' - a')) (fun i => vat v (a' + i)).

(** [np.flip(v)] *)
Definition vflip {A} (v : vec A) : vec A := mkvec (vlen v) (fun i => vat v (vlen v - 1 - i)).

(** [v * w] *)
Definition vmul (v w : vec complex) : res (vec complex) :=
  if vlen v =? vlen w then Ok (mkvec (vlen v) (fun i => cmul (vat v i) (vat w i))) else Throw.

(** [np.empty_like(data)] (__init__.py:248) has the dtype of the data: what is assigned to an array
    of integers is truncated towards zero. *)
Inductive dtype := Float | Integer.
Definition truncate (x : R) : R := if Rle_dec 0 x then IZR (Int_part x) else (- IZR (Int_part (- x)))%R.
Definition cast (dt : dtype) (x : R) : R := match dt with Float => x | Integer => truncate x end.

(** [np.real(v)], as stored in an array of that dtype *)
Definition vreal (dt : dtype) (v : vec complex) : vec R := mkvec (vlen v) (fun i => cast dt (fst (vat v i))).

(** [ret[a:b] = v] *)
Definition vassign {A} (ret : vec A) (a b : Z) (v : vec A) : res (vec A) :=
  let a' := Z.min a (vlen ret) in let b' := Z.min b (vlen ret) in
  if Z.max 0 (b' - a') =? vlen v
  then Ok (mkvec (vlen ret) (fun i => if (a' <=? i) && (i <? b') then vat v (i - a') else vat ret i))
  else Throw.

(** [ret[i] = x] *)
Definition vput {A} (ret : vec A) (i : Z) (x : A) : res (vec A) :=
  if (0 <=? i) && (i <? vlen ret) then Ok (mkvec (vlen ret) (fun j => if j =? i then x else vat ret j))
  else Throw.

(** ** Matrices *)
Record mat (A : Type) := mkmat { mrows : Z; mcols : Z; mat_at : Z -> Z -> A }.
Arguments mkmat {A}. Arguments mrows {A}. Arguments mcols {A}. Arguments mat_at {A}.

(** [M[i, :]] and [M[:, j]] *)
Definition mrow {A} (M : mat A) (i : Z) : vec A := mkvec (mcols M) (fun j => mat_at M i j).
Definition mcol {A} (M : mat A) (j : Z) : vec A := mkvec (mrows M) (fun i => mat_at M i j).

(** [M[a:b, c:d]] *)
Definition mslice {A} (a b c d : Z) (M : mat A) : mat A :=
  let a' := Z.min a (mrows M) in let b' := Z.min b (mrows M) in
  let c' := Z.min c (mcols M) in let d' := Z.min d (mcols M) in
  mkmat (Z.max 0 (b' - a')) (Z.max 0 (d' - c')) (fun i j => mat_at M (a' + i) (c' + j)).

(** [np.flip(M, axis=0)], [np.flip(M, axis=1)], [np.flip(M)] *)
Definition mflip0 {A} (M : mat A) : mat A :=
  mkmat (mrows M) (mcols M) (fun i j => mat_at M (mrows M - 1 - i) j).
Definition mflip1 {A} (M : mat A) : mat A :=
  mkmat (mrows M) (mcols M) (fun i j => mat_at M i (mcols M - 1 - j)).
Definition mflip {A} (M : mat A) : mat A := mflip0 (mflip1 M).

(** [M * N] *)
Definition mmul (M N : mat complex) : res (mat complex) :=
  if (mrows M =? mrows N) && (mcols M =? mcols N)
  then Ok (mkmat (mrows M) (mcols M) (fun i j => cmul (mat_at M i j) (mat_at N i j))) else Throw.

(** [np.real(M)], as stored in an array of that dtype *)
Definition mreal (dt : dtype) (M : mat complex) : mat R := mkmat (mrows M) (mcols M) (fun i j => cast dt (fst (mat_at M i j))).

(** [ret[a:b, c:d] = V] *)
Definition massign {A} (ret : mat A) (a b c d : Z) (V : mat A) : res (mat A) :=
  let a' := Z.min a (mrows ret) in let b' := Z.min b (mrows ret) in
  let c' := Z.min c (mcols ret) in let d' := Z.min d (mcols ret) in
  if (Z.max 0 (b' - a') =? mrows V) && (Z.max 0 (d' - c') =? mcols V)
  then Ok (mkmat (mrows ret) (mcols ret) (fun i j =>
         if (a' <=? i) && (i <? b') && (c' <=? j) && (j <? d') then mat_at V (i - a') (j - c')
         else mat_at ret i j))
  else Throw.

(** [ret[i, c:d] = v] and [ret[a:b, j] = v] *)
Definition massign_row {A} (ret : mat A) (i c d : Z) (v : vec A) : res (mat A) :=
  if (0 <=? i) && (i <? mrows ret)
  then massign ret i (i + 1) c d (mkmat 1 (vlen v) (fun _ j => vat v j)) else Throw.
Definition massign_col {A} (ret : mat A) (a b j : Z) (v : vec A) : res (mat A) :=
  if (0 <=? j) && (j <? mcols ret)
  then massign ret a b j (j + 1) (mkmat (vlen v) 1 (fun i _ => vat v i)) else Throw.

(** ** One sample *)

(** [e] and [s] (__init__.py:253-254, 262-265) *)
Definition stop_of (n : Z) : Z := if n mod 2 =? 0 then n / 2 else n / 2 + 1.
Definition start_of (n : Z) : Z := if n mod 2 =? 0 then stop_of n + 1 else stop_of n.

(** The one-dimensional case (__init__.py:250-257, 277); [junk] is what [np.empty_like] (248)
    returns.  [fft] raises for empty data. *)
Definition sample1 (dt : dtype) (n : Z) (u junk : Z -> R) : res (vec R) :=
  if n <? 1 then Throw else
  let hat := mkvec n (fft n u) in
  let e := stop_of n in
  let s := start_of n in
  let ret := mkvec n junk in
  ret <- vput ret 0 (cast dt (fst (cmul (vat hat 0) (vat hat 0)))) ;;
  low <- vmul (vslice 1 e hat) (vflip (vslice s n hat)) ;;
  ret <- vassign ret 1 e (vreal dt low) ;;
  ret <- vassign ret s n (vflip (vslice 1 e ret)) ;;
  Ok (mkvec n (fun k => (vat ret k / IZR n)%R)).

(** The two-dimensional case (__init__.py:259-272, 277). *)
Definition sample2 (dt : dtype) (n m : Z) (u junk : Z -> Z -> R) : res (mat R) :=
  if (n <? 1) || (m <? 1) then Throw else
  let hat := mkmat n m (fft2 n m u) in
  let er := stop_of n in
  let ec := stop_of m in
  let sr := start_of n in
  let sc := start_of m in
  let ret := mkmat n m junk in
  ret <- massign_row ret 0 0 1 (mkvec 1 (fun _ => cast dt (fst (cmul (mat_at hat 0 0) (mat_at hat 0 0))))) ;;
  v <- vmul (vslice 1 ec (mrow hat 0)) (vflip (vslice sc m (mrow hat 0))) ;;
  ret <- massign_row ret 0 1 ec (vreal dt v) ;;
  v <- vmul (vslice 1 er (mcol hat 0)) (vflip (vslice sr n (mcol hat 0))) ;;
  ret <- massign_col ret 1 er 0 (vreal dt v) ;;
  M <- mmul (mslice 1 er 1 ec hat) (mflip (mslice sr n sc m hat)) ;;
  ret <- massign ret 1 er 1 ec (mreal dt M) ;;
  ret <- massign ret sr n sc m (mflip (mslice 1 er 1 ec ret)) ;;
  M <- mmul (mslice 1 er 1 ec hat) (mflip1 (mslice 1 er sc m hat)) ;;
  ret <- massign ret 1 er sc m (mreal dt M) ;;
  M <- mmul (mslice 1 er 1 ec hat) (mflip0 (mslice sr n 1 ec hat)) ;;
  ret <- massign ret sr n 1 ec (mreal dt M) ;;
  Ok (mkmat n m (fun i j => (mat_at ret i j / IZR (n * m))%R)).

(** ** The ensemble *)

(** [shape], [first] and [norm] of [enstat.static]; [None] is a NaN entry.  Entries are numbered
    by their list of indices. *)
Record stat := mkstat { st_shape : list Z; st_first : list Z -> option R; st_norm : Z }.

(** [_allocate] (__init__.py:157-182), for [first]. *)
Definition allocate (shape : list Z) : res stat :=
  match shape with
  | [n] => Ok (mkstat shape
      (fun i => if (n mod 2 =? 0) && (nth 0 i 0 =? n / 2) then None else Some 0%R) 0)
  | [n; m] =>
      if Bool.eqb (n mod 2 =? 0) (m mod 2 =? 0)
      then Ok (mkstat shape
        (fun i => if (n mod 2 =? 0) && ((nth 0 i 0 =? n / 2) || (nth 1 i 0 =? m / 2))
                  then None else Some 0%R) 0)
      else Throw
  | _ => Throw
  end.

(** [super().add_sample] (__init__.py:277): allocates when needed (the shape may also be given
    to the constructor, 149-155), requires the shapes to agree, adds. *)
Definition shape_eqb (a b : list Z) : bool := if list_eq_dec Z.eq_dec a b then true else false.

Definition accumulate (st : option stat) (shape : list Z) (x : list Z -> R) : res stat :=
  st <- match st with Some st => Ok st | None => allocate shape end ;;
  if shape_eqb (st_shape st) shape
  then Ok (mkstat (st_shape st)
         (fun i => match st_first st i with Some y => Some (y + x i)%R | None => None end)
         (st_norm st + 1))
  else Throw.

(** [add_sample] (__init__.py:243-277), of arrays of floating point numbers and of integers *)
Inductive data :=
| Data1 (n : Z) (u : Z -> R)
| Data2 (n m : Z) (u : Z -> Z -> R)
| IntData1 (n : Z) (u : Z -> Z)
| IntData2 (n m : Z) (u : Z -> Z -> Z).

Definition add_sample (st : option stat) (d : data) (junk : Z -> Z -> R) : res stat :=
  match d with
  | Data1 n u =>
      r <- sample1 Float n u (junk 0) ;;
      accumulate st [n] (fun i => vat r (nth 0 i 0))
  | Data2 n m u =>
      r <- sample2 Float n m u junk ;;
      accumulate st [n; m] (fun i => mat_at r (nth 0 i 0) (nth 1 i 0))
  | IntData1 n u =>
      r <- sample1 Integer n (fun j => IZR (u j)) (junk 0) ;;
      accumulate st [n] (fun i => vat r (nth 0 i 0))
  | IntData2 n m u =>
      r <- sample2 Integer n m (fun a b => IZR (u a b)) junk ;;
      accumulate st [n; m] (fun i => mat_at r (nth 0 i 0) (nth 1 i 0))
  end.

(** A history of samples, each with the contents of the memory it was computed in. *)
Definition add_samples (st : option stat) (l : list (data * (Z -> Z -> R))) : res (option stat) :=
  foldM (fun st d => st' <- add_sample st (fst d) (snd d) ;; Ok (Some st')) l st.

(** [mean()] of [enstat.static]: the sum divided by the number of samples. *)
Definition mean (st : stat) (i : list Z) : option R :=
  match st_first st i with Some x => Some (x / IZR (st_norm st))%R | None => None end.

(** [np.fft.fftfreq(n)] at index [k]. *)
Definition fftfreq (n k : Z) : R :=
  (IZR (if k <? (n - 1) / 2 + 1 then k else k - ((n - 1) / 2 + 1) - n / 2) / IZR n)%R.

(** [q(axis)] (__init__.py:184-206) *)
Definition q_of (st : stat) (axis : option Z) : res (list Z -> R) :=
  match st_shape st with
  | [n] => Ok (fun i => fftfreq n (nth 0 i 0))
  | [n; m] =>
      match axis with
      | Some 0 => Ok (fun i => fftfreq n (nth 0 i 0))
      | Some 1 => Ok (fun i => fftfreq m (nth 1 i 0))
      | _ => Throw
      end
  | _ => Throw
  end.

(** [qnorm] (__init__.py:208-241): its shape and entries. *)
Definition qnorm (st : stat) : res (list Z * (list Z -> R)) :=
  match st_shape st with
  | [n] => Ok ([Z.min n (stop_of n)], fun i => Rabs (fftfreq n (nth 0 i 0)))
  | [n; m] => Ok ([Z.min n (stop_of n); Z.min m (stop_of m)],
      fun i => sqrt (fftfreq n (nth 0%nat i 0%Z) ^ 2 + fftfreq m (nth 1%nat i 0%Z) ^ 2)%R)
  | _ => Throw
  end.
