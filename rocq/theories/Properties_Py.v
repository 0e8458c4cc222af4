(** * Properties_Py: C75, C77

    The Python bindings of Ensemble.  Statements only. *)

From Coq Require Import ZArith QArith Qcanon List Bool Lia.
From Verif Require Import Base SpecCluster SpecDilate Path Ensemble SpecEnsemble SpecAlgebra EnsemblePy SpecPy DerivedPy EnsemblePyTop.
Import ListNotations.
Open Scope Z_scope.

(** ** C75 [variance()] of the height-height correlation

    After any sequence of calls it is the (root of the) unbiased sample variance of all squared
    height differences taken into account, if the ensemble stores second moments: the default in
    C++, to be requested in Python. *)
Theorem C75_variance_cpp_default :
  forall asrt roi periodic e0 cs, Forall (fun n => 0 <= n) roi -> cpp_ensemble asrt roi periodic None = Ok e0 ->
  (forall c, In c cs -> height_call (match periodic with Some b => b | None => true end) roi c) ->
  exists e, run asrt cs e0 = Ok e /\ forall r, pixel roi r ->
    let l := flat_map (height_differences (match periodic with Some b => b | None => true end) (offset roi r)) cs in
    (1 <= lenZ l -> result_at e r = Root (average l)) /\ (2 <= lenZ l -> variance_at e r = Some (Root (sample_variance l))).
Proof. exact cpp_variance. Qed.
Print Assumptions C75_variance_cpp_default.

Theorem C75_variance_python_partial :
  forall asrt roi periodic e0 cs, Forall (fun n => 0 <= n) roi -> py_ensemble asrt roi periodic (Some true) = Ok e0 ->
  (forall c, In c cs -> height_call (match periodic with Some b => b | None => true end) roi c) ->
  exists e, run asrt cs e0 = Ok e /\ forall r, pixel roi r ->
    let l := flat_map (height_differences (match periodic with Some b => b | None => true end) (offset roi r)) cs in
    (1 <= lenZ l -> result_at e r = Root (average l)) /\ (2 <= lenZ l -> variance_at e r = Some (Root (sample_variance l))).
Proof. exact py_variance. Qed.
Print Assumptions C75_variance_python_partial.

(** Without the request there is no error: the variance read is not a number, whenever a height
    difference is not zero. *)
Theorem C75_python_default_is_nan :
  forall asrt roi periodic e0 cs, Forall (fun n => 0 <= n) roi -> py_ensemble asrt roi periodic None = Ok e0 ->
  (forall c, In c cs -> height_call (match periodic with Some b => b | None => true end) roi c) ->
  exists e, run asrt cs e0 = Ok e /\ forall r, pixel roi r ->
    let l := flat_map (height_differences (match periodic with Some b => b | None => true end) (offset roi r)) cs in
    2 <= lenZ l -> (exists x, In x l /\ x <> 0%Qc) -> variance_at e r = Some NaN.
Proof. exact py_default_variance. Qed.
Print Assumptions C75_python_default_is_nan.

Theorem C75_python_default_refuted :
  exists roi e0 cs e r,
    py_ensemble true roi None None = Ok e0 /\ (forall c, In c cs -> height_call true roi c) /\
    run true cs e0 = Ok e /\ pixel roi r /\ 2 <= lenZ (flat_map (height_differences true (offset roi r)) cs) /\
    variance_at e r <> Some (Root (sample_variance (flat_map (height_differences true (offset roi r)) cs))) /\
    variance_at e r = Some NaN.
Proof. exact py_variance_refuted. Qed.
Print Assumptions C75_python_default_refuted.

Definition C75_f : img Qc := mkimg [4] (map zq [1; 4; 9; 2]).
Definition C75_m : img Z := mkimg [4] [0; 0; 1; 0].
Example C75_case :
  Forall (fun n => 0 <= n) [3] /\
  (exists e0, cpp_ensemble true [3] (Some false) None = Ok e0) /\ (exists e0, py_ensemble true [3] (Some false) (Some true) = Ok e0) /\
  (forall c, In c [CallHH C75_f None; CallHH C75_f (Some C75_m)] -> height_call false [3] c) /\
  flat_map (height_differences false (offset [3] 0)) [CallHH C75_f None; CallHH C75_f (Some C75_m)] = map zq [9; 25; 49; 9] /\
  sample_variance (map zq [9; 25; 49; 9]) = (zq 1072 / zq 3)%Qc.
Proof.
  split; [repeat constructor; lia|]. split; [eexists; vm_compute; reflexivity|]. split; [eexists; vm_compute; reflexivity|].
  split.
  { assert (S : shapes false [3] [4]).
    { unfold shapes. split; [reflexivity|]. split; [cbn; lia|]. split; [repeat constructor; lia|]. split; [repeat constructor; lia|]. discriminate. }
    intros c [<-|[<-|[]]]; (split; [exact S|]; split; [split; reflexivity|]); [exact I|].
    split; [split; reflexivity|cbn; intros; lia]. }
  split; vm_compute; [reflexivity|]. apply Qc_is_canon. reflexivity.
Qed.

(** ** C77 The images that are passed are the images that are analysed

    [asked m args mode c]: what the call of method [m] with arrays [args] asks for, whatever the
    dtypes.  [faithful]: without masks, [S2] and [W2] need two float64 arrays, or integer values
    only; [W2c] needs int32 labels with a float64 image, or an image of integers.  With masks,
    and for [mean], [heightheight], [C2] and [L], all dtypes will do. *)
Theorem C77_images_analysed_partial :
  forall asrt e m args mode c, asked m args mode c -> faithful m args ->
  py_add asrt e m args mode = add asrt e c /\
  forall roi per, m <> M_mean -> py_single asrt roi per m args mode = single asrt roi per c.
Proof. exact asked_add. Qed.
Print Assumptions C77_images_analysed_partial.

(** In all other cases both images are rounded towards zero, without an error. *)
Theorem C77_rounded_towards_zero :
  forall f g mode, ~ both_double f g ->
  (forall c, py_call M_S2 [f; g] mode = Ok c -> exists i j, c = CallS2 i j None /\ rounded f i /\ rounded g j) /\
  (forall c, py_call M_W2 [f; g] mode = Ok c -> exists i j, c = CallW2 i j None /\ rounded f i /\ rounded g j).
Proof. exact truncates. Qed.
Print Assumptions C77_rounded_towards_zero.

(** Integer weights with a float image, two float32 images, int64 labels with a float image. *)
Theorem C77_images_analysed_refuted :
  (exists m args mode c, asked m args mode c /\
     single true [1] true c = Ok [Exact half] /\ py_single true [1] true m args mode = Ok [Exact 0%Qc]) /\
  (exists f g mode c, asked M_S2 [f; g] mode c /\ a_dtype f = Float32 /\ a_dtype g = Float32 /\
     single true [1] true c = Ok [Exact (half * half)%Qc] /\ py_single true [1] true M_S2 [f; g] mode = Ok [Exact 0%Qc]) /\
  (exists c ce f mode k, asked M_W2c [c; ce; f] mode k /\ a_dtype c = Int64 /\ a_dtype ce = Int64 /\ a_dtype f = Float64 /\
     exists v v', single true [3] true k = Ok v /\ py_single true [3] true M_W2c [c; ce; f] mode = Ok v' /\ v <> v').
Proof. exact truncated_refuted. Qed.
Print Assumptions C77_images_analysed_refuted.

(** A float image with int64 weights: with a mask all is well, without one it is rounded. *)
Definition C77_w : array := mkarray Int64 [2] (map zq [1; 1]).
Definition C77_f : array := mkarray Float64 [2] [half; (half + 1)%Qc].
Definition C77_m : array := mkarray Bool8 [2] (map zq [0; 1]).
Example C77_case :
  asked M_W2 [C77_w; C77_f; C77_m] Bresenham (CallW2 (image C77_w) (image C77_f) (Some (mkimg [2] [0; 1]))) /\
  faithful M_W2 [C77_w; C77_f; C77_m] /\ faithful M_S2 [C77_f; C77_f] /\ faithful M_W2 [C77_w; C77_w] /\
  (exists e, py_add true (mkens Unset true true [1] (Array3.tab 1 1 1 (fun _ _ _ => 0%Qc)) (Array3.tab 1 1 1 (fun _ _ _ => 0%Qc)) (Array3.tab 1 1 1 (fun _ _ _ => 0%Qc)))
                    M_W2 [C77_w; C77_f; C77_m] Bresenham = Ok e /\ data_first e = [half]) /\
  ~ both_double C77_w C77_f /\ py_call M_W2 [C77_w; C77_f] Bresenham = Ok (CallW2 (mkimg [2] (map zq [1; 1])) (mkimg [2] (map zq [0; 1])) None).
Proof.
  split. { apply asked_W2_mask. split; [reflexivity|]. split; [reflexivity|]. repeat constructor; lia. }
  split; [exact I|]. split; [left; split; reflexivity|].
  split. { right. split; exists (mkimg [2] [1; 1]); (split; [reflexivity|split; [reflexivity|repeat constructor; lia]]). }
  split. { eexists. split; [vm_compute; reflexivity|]. vm_compute. reflexivity. }
  split; [intros [H _]; discriminate|]. vm_compute. reflexivity.
Qed.
