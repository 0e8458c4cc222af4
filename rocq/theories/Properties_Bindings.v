(** * Properties_Bindings: C94-C96

    The Python bindings outside Ensemble.  Statements only. *)

From Coq Require Import ZArith QArith Qcanon List Bool String Lia Permutation.
From Verif Require Import Base Cluster SpecCluster Labels Dilate Ensemble EnsemblePy BindingsPy SpecBindings DerivedBindings.
Import ListNotations.
Open Scope Z_scope.

(** ** C94 [dilate] of Python is [dilate] of C++

    [answers asrt r out]: [out] is what C++ returns for the request [r].  With all arguments but
    the image named, in any order, whatever the dtypes: *)
Theorem C94_dilate_by_name_partial :
  forall asrt r kw, valid_request r ->
  (Permutation kw (keywords r) -> answers asrt r (py_dilate asrt [PyArr (r_image r)] kw)) /\
  (Permutation kw (("f"%string, PyArr (r_image r)) :: keywords r) -> answers asrt r (py_dilate asrt [] kw)).
Proof. exact dilate_by_name. Qed.
Print Assumptions C94_dilate_by_name_partial.

(** By position, if the dtypes are those of the C++ signature ([int32], [uint64]): *)
Theorem C94_dilate_by_position_partial :
  forall asrt r, valid_request r -> in_order r -> native r -> answers asrt r (py_dilate asrt (positionals r) []).
Proof. exact dilate_native. Qed.
Print Assumptions C94_dilate_by_position_partial.

(** By position with other dtypes, [dilate(f, kernel)] takes the kernel of a one-dimensional image
    for the numbers of iterations, *)
Theorem C94_kernel_taken_for_iterations :
  forall asrt f k i l, integers (- 2 ^ 31) (2 ^ 31) f i -> counts k l -> ~ (a_dtype f = Int32 /\ a_dtype k = Int32) ->
  py_dilate asrt [PyArr f; PyArr k] [] = dilate_default asrt (i_shape i) (i_vals i) l true.
Proof. exact kernel_as_iterations. Qed.
Print Assumptions C94_kernel_taken_for_iterations.

(** and [dilate(f, n)] is an error (with assertions). *)
Theorem C94_number_by_position_throws :
  forall f n i, integers (- 2 ^ 31) (2 ^ 31) f i -> 0 <= n < 2 ^ 31 -> a_dtype f <> Int32 ->
  i_shape i <> [] -> i_vals i <> [] -> py_dilate true [PyArr f; PyNum n] [] = Throw.
Proof. exact number_rejected. Qed.
Print Assumptions C94_number_by_position_throws.

(** Calls that ask for nothing raise an exception (no call has the same name twice). *)
Theorem C94_misuse_raises :
  forall asrt pos kw, NoDup (map fst kw) -> misused pos kw -> py_dilate asrt pos kw = Throw.
Proof. exact dilate_misused. Qed.
Print Assumptions C94_misuse_raises.

(** [iterations=True] is one iteration, [iterations=False] none, whatever else is passed. *)
Theorem C94_flag_of_iterations :
  forall asrt pos kw1 kw2 b,
  py_dilate asrt pos (kw1 ++ ("iterations"%string, PyBool b) :: kw2) = py_dilate asrt pos (kw1 ++ ("iterations"%string, PyNum (if b then 1 else 0)) :: kw2).
Proof. exact iterations_flag. Qed.
Print Assumptions C94_flag_of_iterations.

Definition C94_image (t : dtype) : array := mkarray t [5] (map zq [0; 0; 1; 0; 0]).
Definition C94_kernel (t : dtype) : array := mkarray t [3] (map zq [1; 1; 0]).

(** The image 0 0 1 0 0 and the kernel 1 1 0: the result is not that of C++, which dilates to one
    side only; and [dilate(f, 2)] fails although C++ returns. *)
Theorem C94_dilate_by_position_refuted :
  (exists r out, valid_request r /\ in_order r /\ py_dilate true (positionals r) [] = Ok out /\ ~ answers true r (Ok out)) /\
  (exists r out, valid_request r /\ in_order r /\ answers true r (Ok out) /\ py_dilate true (positionals r) [] = Throw).
Proof. exact dilate_position_refuted. Qed.
Print Assumptions C94_dilate_by_position_refuted.

Definition C94_request (t : dtype) : request :=
  mkrequest (C94_image t) (Some (C94_kernel t)) (Some (PerLabel (mkarray UInt64 [2] (map zq [0; 2])))) (Some false).
Example C94_case :
  valid_request (C94_request Int64) /\ valid_request (C94_request Int32) /\ in_order (C94_request Int32) /\ native (C94_request Int32) /\
  py_dilate true (positionals (C94_request Int32)) [] = Ok [1; 1; 1; 0; 0] /\
  py_dilate true [] [("iterations", PyArr (mkarray Int64 [2] (map zq [0; 2]))); ("f", PyArr (C94_image Bool8));
                     ("periodic", PyBool false); ("kernel", PyArr (C94_kernel Float64))]%string = Ok [1; 1; 1; 0; 0] /\
  py_dilate true [PyArr (C94_image Int64)] [("iterations"%string, PyNum 2)] = Ok [1; 1; 1; 1; 1] /\
  counts (C94_kernel Int64) [1; 1; 0] /\ py_dilate true [PyArr (C94_image Int64); PyArr (C94_kernel Int64)] [] = Ok [0; 1; 1; 1; 0] /\
  py_dilate true [PyArr (C94_image Int32); PyArr (C94_kernel Int32)] [] = Ok [0; 1; 1; 0; 0].
Proof.
  assert (V : forall t, valid_request (C94_request t)).
  { intros t. split; [exists (mkimg [5] [0; 0; 1; 0; 0])|split; [exists (mkimg [3] [1; 1; 0])|]].
    - split; [reflexivity|]. split; [reflexivity|]. repeat constructor; lia.
    - split; [reflexivity|]. split; [reflexivity|]. repeat constructor; lia.
    - exists [0; 2]. split; [eexists; reflexivity|]. split; [reflexivity|]. repeat constructor; lia. }
  split; [apply V|]. split; [apply V|]. split; [intros H; discriminate|]. split; [repeat split|].
  split; [vm_compute; reflexivity|]. split; [vm_compute; reflexivity|]. split; [vm_compute; reflexivity|].
  split; [split; [eexists; reflexivity|split; [reflexivity|repeat constructor; lia]]|]. split; vm_compute; reflexivity.
Qed.

Example C94_flag_case :
  py_dilate true [PyArr (C94_image Int64)] [("iterations"%string, PyBool true)] = Ok [0; 1; 1; 1; 0] /\
  py_dilate true [PyArr (C94_image Int64)] [("iterations"%string, PyBool false)] = Ok [0; 0; 1; 0; 0].
Proof. split; vm_compute; reflexivity. Qed.

Example C94_misused_case :
  misused [PyArr (C94_image Int32); PyArr (C94_kernel Int32); PyNum 1; PyBool true; PyBool true] [] /\
  misused [PyArr (C94_image Int32)] [("iteration"%string, PyNum 2)] /\
  misused [PyArr (C94_image Int32)] [("iterations"%string, PyArr (mkarray Int64 [1; 2] (map zq [0; 2])))].
Proof.
  split; [|split].
  - apply misused_many. cbn. lia.
  - apply (misused_name _ _ "iteration" (PyNum 2)); [left; reflexivity|]. intros H. cbn [In] in H. intuition discriminate.
  - eapply misused_table; [left; reflexivity|]. cbn. lia.
Qed.

(** ** C95 What is not zero is foreground, and labels are what is passed *)

(** Arrays of integers, of any dtype: as in C++ (C01, C16-C21). *)
Theorem C95_integers_as_passed_partial :
  forall asrt a i, integers (- 2 ^ 63) (2 ^ 63) a i ->
  (forall per, py_clusters asrt a per = clusters asrt (i_shape i) (i_vals i) per) /\
  py_labels_prune asrt a = labels_prune asrt (i_vals i) /\
  py_labels_sizes a = Ok (labels_sizes (i_vals i)) /\
  forall b j, integers (- 2 ^ 63) (2 ^ 63) b j ->
    py_labels_map a b = labels_map (i_vals i) (i_vals j) /\
    (forall n, a_shape b = [n] -> py_labels_reorder asrt a b = labels_reorder asrt (i_vals i) (i_vals j) /\
                                  py_labels_sizes_names a b = Ok (labels_sizes_names (i_vals i) (i_vals j))) /\
    (forall n m, a_shape b = [n; m] -> py_labels_rename asrt a b = labels_rename asrt (i_vals i) n m (i_vals j)).
Proof. exact labels_as_passed. Qed.
Print Assumptions C95_integers_as_passed_partial.

(** Lists and tables of the wrong rank raise an exception. *)
Theorem C95_wrong_rank_raises :
  forall asrt a i b, integers (- 2 ^ 63) (2 ^ 63) a i ->
  ((forall n, a_shape b <> [n]) -> py_labels_reorder asrt a b = Throw /\ py_labels_sizes_names a b = Throw) /\
  ((forall n m, a_shape b <> [n; m]) -> py_labels_rename asrt a b = Throw).
Proof. exact labels_wrong_rank. Qed.
Print Assumptions C95_wrong_rank_raises.

(** Any array: the background is what lies strictly between -1 and 1. *)
Theorem C95_clusters_of_any_array :
  forall asrt a per, good_shape (a_shape a) -> (List.length (a_shape a) <= 3)%nat -> complete a -> between (- 2 ^ 63) (2 ^ 63) a ->
  exists lab, py_clusters asrt a per = Ok lab /\ lenZ lab = zprod (a_shape a) /\
    (forall p, pixel (a_shape a) p -> (zn lab p = 0 <-> (zq (-1) < value_at a p)%Qc /\ (value_at a p < zq 1)%Qc)) /\
    (forall p q, pixel (a_shape a) p -> pixel (a_shape a) q -> zn lab p <> 0 -> zn lab q <> 0 ->
       (zn lab p = zn lab q <-> linked (face_neighbour per (a_shape a)) (fun x => pixel (a_shape a) x /\ zn lab x <> 0) p q)).
Proof. exact py_clusters_any. Qed.
Print Assumptions C95_clusters_of_any_array.

(** A pixel of 0.5 is not zero, but not labelled either. *)
Theorem C95_foreground_refuted :
  exists a lab p, good_shape (a_shape a) /\ complete a /\ between (- 2 ^ 63) (2 ^ 63) a /\
    py_clusters true a true = Ok lab /\ pixel (a_shape a) p /\ value_at a p <> 0%Qc /\ zn lab p = 0.
Proof. exact foreground_refuted. Qed.
Print Assumptions C95_foreground_refuted.

Definition C95_half : Qc := Q2Qc (1 # 2).
Example C95_case :
  let a := mkarray Float64 [2; 3] [C95_half; zq 1; zq 0; zq 3; zq 1; (- C95_half)%Qc] in
  good_shape (a_shape a) /\ complete a /\ between (- 2 ^ 63) (2 ^ 63) a /\ py_clusters true a false = Ok [0; 1; 0; 1; 1; 0] /\
  integers (- 2 ^ 63) (2 ^ 63) (mkarray Bool8 [2; 2] (map zq [1; 0; 0; 1])) (mkimg [2; 2] [1; 0; 0; 1]).
Proof.
  split; [split; [discriminate|split; [repeat constructor; lia|reflexivity]]|]. split; [reflexivity|].
  split; [repeat constructor; try (vm_compute; discriminate); vm_compute; reflexivity|]. split; [vm_compute; reflexivity|].
  split; [reflexivity|]. split; [reflexivity|]. repeat constructor; lia.
Qed.

(** ** C96 The labeller of Python is safe

    Legal calls do the same as in C++ (C03-C11). *)
Theorem C96_histories_as_in_cpp :
  forall asrt g ops ops', Forall2 same_op ops ops' -> Forall (legal (g_shape g)) ops' -> py_run asrt g ops = Cluster.run asrt g ops'.
Proof. exact py_run_same. Qed.
Print Assumptions C96_histories_as_in_cpp.

(** Any history whatever (wrong shapes, indices that are negative or beyond the image) returns or
    raises an exception, given the assertions that the Python module is compiled with. *)
Theorem C96_any_history_returns_or_raises :
  forall g ops, wf g -> Forall any_op ops -> (exists r, py_run true g ops = Ok r) \/ py_run true g ops = Throw.
Proof. exact py_run_any. Qed.
Print Assumptions C96_any_history_returns_or_raises.

Definition C96_g : cfg := mkcfg [2; 3] true [[-1; 0]; [0; -1]; [0; 1]; [1; 0]].
Example C96_case :
  wf C96_g /\
  Forall2 same_op [PyAddImage (mkarray Bool8 [2; 3] (map zq [1; 0; 0; 0; 0; 1])); PyAddPoints (mkarray Int64 [1] [zq 3]); PyPrune]
                  [AddImage [2; 3] [1; 0; 0; 0; 0; 1]; AddPoints [3]; Prune] /\
  py_run true C96_g [PyAddImage (mkarray Bool8 [2; 3] (map zq [1; 0; 0; 0; 0; 1])); PyAddPoints (mkarray Int64 [1] [zq 3]); PyPrune]
    = Cluster.run true C96_g [AddImage [2; 3] [1; 0; 0; 0; 0; 1]; AddPoints [3]; Prune] /\
  Forall any_op [PyAddPoints (mkarray Int64 [2] [zq 0; zq (-1)])] /\
  py_run true C96_g [PyAddPoints (mkarray Int64 [2] [zq 0; zq (-1)])] = Throw.
Proof.
  split; [split; [discriminate|split; [repeat constructor; lia|split; [reflexivity|]]]; intros d Hd; repeat (destruct Hd as [<-|Hd]; [split; [reflexivity|repeat (apply Forall_cons; [unfold big; lia|]); apply Forall_nil]|]); destruct Hd|]. split.
  { constructor; [apply (same_image _ (mkimg [2; 3] [1; 0; 0; 0; 0; 1]))|constructor; [|constructor; [|constructor]]].
    - split; [reflexivity|]. split; [reflexivity|]. repeat constructor; lia.
    - apply same_points. split; [eexists; reflexivity|]. split; [reflexivity|]. repeat constructor; lia.
    - apply same_prune. }
  split; [vm_compute; reflexivity|]. split; [repeat constructor; discriminate|]. vm_compute. reflexivity.
Qed.
