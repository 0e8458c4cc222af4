(** * Properties_Float: C78-C80, C82

    The statistics as computed with [double]s (EnsembleFloat.v), compared with the exact ones
    (Ensemble.v).  Statements only; [is_number], [nearest_double], [library], [same_fdata],
    [harmless], ... are defined in SpecDouble. *)

From Coq Require Import ZArith QArith Qcanon Reals List Bool Lia Permutation.
From Flocq Require Import Core BinarySingleNaN.
From Verif Require Import Base SpecCluster Path Ensemble SpecEnsemble DerivedRun Double EnsembleFloat SpecDouble DoubleProofs
  EnsembleFloatTop EnsembleFloatMask EnsembleFloatOrder EnsembleFloatMean.
Import ListNotations.
Open Scope Z_scope.

(** ** C78 The statistics of images of integers are exact

    [cs] are the calls with the images as rational numbers, [ds] the same calls with the images
    as [double]s.  All sums are exact, and [result] is the exact value correctly rounded, as
    long as the sums cannot exceed 2^53; where the exact code throws or is undefined, so is the
    other. *)
Theorem C78_integers_are_exact :
  forall L M asrt roi per var cs ds,
  library L -> 1 <= M -> Forall (fun n => 0 <= n) roi ->
  Forall2 same_call cs ds -> Forall (integral_call M) cs -> all_calls roi var M cs <= 2 ^ 53 ->
  alike (fun e x => exact_data e x /\ Forall2 (rounded_value L) (result e) (fresult L x))
    (e <- ensemble asrt roi per var ;; run asrt cs e) (x <- fensemble asrt roi per var ;; frun L asrt ds x).
Proof. exact integers_exact. Qed.
Print Assumptions C78_integers_are_exact.

Definition C78_exact : list call :=
  [CallS2 (mkimg [3] (map zq [1; 0; 7])) (mkimg [3] (map zq [-2; 3; 1000])) (Some (mkimg [3] [0; 0; 1], mkimg [3] [0; 1; 0]));
   CallS2 (mkimg [2] (map zq [5; 6])) (mkimg [2] (map zq [-8; 9])) None].
Definition C78_double : list fcall :=
  [FCallS2 (mkimg [3] (map dz [1; 0; 7])) (mkimg [3] (map dz [-2; 3; 1000])) (Some (mkimg [3] [0; 0; 1], mkimg [3] [0; 1; 0]));
   FCallS2 (mkimg [2] (map dz [5; 6])) (mkimg [2] (map dz [-8; 9])) None].

Lemma C78_numbers : forall l, Forall (fun z => Z.abs z <= 2 ^ 53) l -> Forall2 is_number (map zq l) (map dz l).
Proof.
  induction l as [|z l IH]; intros H; inversion H; subst; cbn [map]; constructor; auto.
  destruct (exactly_dz z) as (F & w & E & R & _); [lia|]. apply zq_inj in E. subst w. split; [exact F|]. rewrite R, Q2R_zq. reflexivity.
Qed.

Lemma C78_integral : forall M shape l, Forall (fun z => Z.abs z <= M) l -> integral M (mkimg shape (map zq l)).
Proof. intros M shape l H q Hq. cbn [i_vals] in Hq. apply in_map_iff in Hq. destruct Hq as (z & <- & Hz). exists z. split; [reflexivity|]. apply (proj1 (Forall_forall _ _) H z Hz). Qed.

Example C78_case :
  library plain /\ Forall2 same_call C78_exact C78_double /\ Forall (integral_call 1000) C78_exact /\
  all_calls [3] false 1000 C78_exact <= 2 ^ 53 /\
  (x <- (x0 <- fensemble true [3] false false ;; frun plain true C78_double x0) ;;
   Ok (map (fun v => B2SF v) (fdata_first x), map (fun v => B2SF v) (fnorm x))) =
   Ok (map (fun z => B2SF (dz z)) [-48; 14 - 2; 45], map (fun z => B2SF (dz z)) [2; 3; 2]).
Proof.
  split; [apply plain_library|]. split; [|split; [|split; [vm_compute; discriminate|vm_compute; reflexivity]]].
  - do 2 (constructor; [split; [|split; [|reflexivity]]; (split; [reflexivity|]); apply C78_numbers; repeat constructor; vm_compute; discriminate|]). constructor.
  - do 2 (constructor; [split; [split; [repeat constructor; lia|reflexivity]|];
      split; [apply C78_integral; repeat constructor; lia|]; split; [apply C78_integral; repeat constructor; lia|];
      intros m n H; inversion H; split; intros x Hx; cbn in Hx; lia|]). constructor.
Qed.

(** ** C79 What masked pixels hold does not matter *)

(** [mean] and [W2c]: never, not even a NaN; in any ensemble. *)
Theorem C79_mean_ignores_masked_values :
  forall L asrt x shape f f' m, same_unmasked shape m f f' ->
  fadd L asrt x (FMeanMasked f m) = fadd L asrt x (FMeanMasked f' m).
Proof. exact mean_mask_any. Qed.
Print Assumptions C79_mean_ignores_masked_values.

Theorem C79_W2c_ignores_masked_values :
  forall L asrt x clusters centers shape f f' m mode, same_unmasked shape m f f' ->
  fadd L asrt x (FCallW2c clusters centers f (Some m) mode) = fadd L asrt x (FCallW2c clusters centers f' (Some m) mode).
Proof. exact W2c_mask_any. Qed.
Print Assumptions C79_W2c_ignores_masked_values.

(** [S2], [W2] and [heightheight] multiply by zero instead: a masked NaN ends up in the
    result. *)
Theorem C79_S2_refuted : forall L asrt, exists shape f g g' m n x y,
  is_image shape f /\ is_mask shape m /\ same_unmasked shape n g g' /\
  ffresh L asrt [1] false false (FCallS2 f g (Some (m, n))) = Ok x /\
  ffresh L asrt [1] false false (FCallS2 f g' (Some (m, n))) = Ok y /\
  some_nan (fresult L x) = false /\ some_nan (fresult L y) = true.
Proof. exact S2_mask_refuted. Qed.
Print Assumptions C79_S2_refuted.

Theorem C79_W2_refuted : forall L asrt, exists shape w f f' m x y,
  is_image shape w /\ same_unmasked shape m f f' /\
  ffresh L asrt [1] false false (FCallW2 w f (Some m)) = Ok x /\
  ffresh L asrt [1] false false (FCallW2 w f' (Some m)) = Ok y /\
  some_nan (fresult L x) = false /\ some_nan (fresult L y) = true.
Proof. exact W2_mask_refuted. Qed.
Print Assumptions C79_W2_refuted.

Theorem C79_heightheight_refuted : forall asrt, exists L shape f f' m x y,
  library L /\ same_unmasked shape m f f' /\
  ffresh L asrt [3] false false (FCallHH f (Some m)) = Ok x /\
  ffresh L asrt [3] false false (FCallHH f' (Some m)) = Ok y /\
  some_nan (fdata_first x) = false /\ some_nan (fdata_first y) = true.
Proof. exact hh_mask_refuted. Qed.
Print Assumptions C79_heightheight_refuted.

(** So do finite numbers, if their product is too large. *)
Theorem C79_S2_of_finite_images_refuted : forall L asrt, exists shape f g g' m n x y,
  is_image shape f /\ is_mask shape m /\ same_unmasked shape n g g' /\ Forall (fun v => is_finite v = true) (i_vals f ++ i_vals g ++ i_vals g') /\
  ffresh L asrt [1] false false (FCallS2 f g (Some (m, n))) = Ok x /\
  ffresh L asrt [1] false false (FCallS2 f g' (Some (m, n))) = Ok y /\
  some_nan (fresult L x) = false /\ some_nan (fresult L y) = true.
Proof. exact S2_mask_finite_refuted. Qed.
Print Assumptions C79_S2_of_finite_images_refuted.

(** The true part: not periodic, and the products are finite.  Any ensemble [x]. *)
Theorem C79_S2_partial :
  forall L asrt x shape f f' g g' m n, root_of_zero L -> f_per x = false ->
  same_unmasked shape m f f' -> same_unmasked shape n g g' -> harmless shape f m g n -> harmless shape f m g' n ->
  alike (same_fdata L) (fadd L asrt x (FCallS2 f g (Some (m, n)))) (fadd L asrt x (FCallS2 f' g' (Some (m, n)))).
Proof. exact S2_mask_guarded. Qed.
Print Assumptions C79_S2_partial.

Theorem C79_W2_partial :
  forall L asrt x shape w f f' m, root_of_zero L -> f_per x = false -> is_image shape w ->
  same_unmasked shape m f f' -> harmless shape w (zeros shape) f m -> harmless shape w (zeros shape) f' m ->
  alike (same_fdata L) (fadd L asrt x (FCallW2 w f (Some m))) (fadd L asrt x (FCallW2 w f' (Some m))).
Proof. exact W2_mask_guarded. Qed.
Print Assumptions C79_W2_partial.

Theorem C79_heightheight_partial :
  forall L asrt x shape f f' m, root_of_zero L -> f_per x = false ->
  same_unmasked shape m f f' -> harmless_differences L (f_var x) shape f f m -> harmless_differences L (f_var x) shape f f' m ->
  alike (same_fdata L) (fadd L asrt x (FCallHH f (Some m))) (fadd L asrt x (FCallHH f' (Some m))).
Proof. exact hh_mask_guarded. Qed.
Print Assumptions C79_heightheight_partial.

Definition C79_f : img double := mkimg [2] [dz 3; dz 5].
Definition C79_g (v : Z) : img double := mkimg [2] [dz v; dz 7].
Definition C79_m : img Z := mkimg [2] [1; 0].
Example C79_case :
  root_of_zero plain /\ same_unmasked [2] C79_m (C79_g 100) (C79_g (-9)) /\
  harmless [2] C79_f (zeros [2]) (C79_g 100) C79_m /\ harmless [2] C79_f (zeros [2]) (C79_g (-9)) C79_m /\
  harmless_differences plain true [2] (C79_g 100) (C79_g (-9)) C79_m /\
  (x <- ffresh plain true [3] false false (FCallW2 C79_f (C79_g 100) (Some C79_m)) ;; Ok (map (fun v => B2SF v) (fdata_first x))) =
    Ok (map (fun z => B2SF (dz z)) [0; 35; 21]).
Proof.
  assert (P : forall p, 0 <= p < zprod [2] -> p = 0 \/ p = 1) by (cbn; lia).
  split; [intros s; exists s; reflexivity|]. split; [apply (rows_mask (dz 100) (dz (-9)) (dz 7))|].
  split; [|split; [|split; [|vm_compute; reflexivity]]]; intros p q Hp Hq _ _; destruct (P p Hp) as [-> | ->]; destruct (P q Hq) as [-> | ->];
    try split; intros; vm_compute; reflexivity.
Qed.

(** ** C80 The order in which realizations are added does not matter *)

(** It does: 2^53, 1 and -2^53 give the average 0 in one order, and 1/3 in another. *)
Theorem C80_order_refuted : forall L asrt, exists ds ds' x x', Permutation ds ds' /\
  (x0 <- fensemble asrt [1] false false ;; frun L asrt ds x0) = Ok x /\
  (x0 <- fensemble asrt [1] false false ;; frun L asrt ds' x0) = Ok x' /\
  fresult L x = [dzero] /\ fresult L x' = [ddiv done (dz 3)].
Proof. exact order_refuted. Qed.
Print Assumptions C80_order_refuted.

(** The true part: images of integers whose sums cannot exceed 2^53. *)
Theorem C80_order_of_integers_partial :
  forall L M asrt roi per var cs ds ds' x,
  library L -> root_of_zero L -> 1 <= M -> Forall (fun n => 0 <= n) roi ->
  Forall2 same_call cs ds -> Forall (integral_call M) cs -> all_calls roi var M cs <= 2 ^ 53 ->
  one_measure cs -> Permutation ds ds' ->
  (x0 <- fensemble asrt roi per var ;; frun L asrt ds x0) = Ok x ->
  exists x', (x0 <- fensemble asrt roi per var ;; frun L asrt ds' x0) = Ok x' /\ same_fdata L x x'.
Proof. exact order_of_integers. Qed.
Print Assumptions C80_order_of_integers_partial.

Example C80_case : root_of_zero plain /\ one_measure C78_exact /\ Permutation C78_double (rev C78_double).
Proof.
  split; [intros s; exists s; reflexivity|]. split; [|apply Permutation_rev].
  exists S_S2. intros c [<-|[<-|[]]]; reflexivity.
Qed.

(** ** C82 The mean lies between the smallest and the largest value, the variance is not negative *)

(** In exact arithmetic. *)
Theorem C82_exact_range : forall asrt roi per var e0 cs lo hi, Forall (fun n => n = 1) roi -> (length roi <= 3)%nat ->
  ensemble asrt roi per var = Ok e0 -> (forall c, In c cs -> mean_call c) ->
  let l := flat_map mean_values cs in
  (forall q, In q l -> lo <= q <= hi)%Qc ->
  exists e, run asrt cs e0 = Ok e /\
    (1 <= lenZ l -> exists m, result e = [Exact m] /\ (lo <= m <= hi)%Qc) /\
    (2 <= lenZ l -> exists v, variance e = Ok [Exact v] /\ (0 <= v)%Qc).
Proof. exact exact_range. Qed.
Print Assumptions C82_exact_range.

(** With [double]s it is false of some images: three pixels of value 0.1 have a mean larger than
    0.1, and a negative variance. *)
Theorem C82_range_refuted : forall asrt, exists L v x m y,
  library L /\ squares L /\ is_finite v = true /\
  (x0 <- fensemble asrt [1] false false ;; frun L asrt [FMean (mkimg [3] [v; v; v])] x0) = Ok x /\
  fresult L x = [m] /\ fvariance L x = Ok [y] /\ (B2R v < B2R m)%R /\ (B2R y < 0)%R.
Proof. exact range_refuted. Qed.
Print Assumptions C82_range_refuted.

(** It is true of images of integers. *)
Theorem C82_mean_of_integers_partial : forall L M asrt roi per var cs ds lo hi,
  library L -> 1 <= M -> Forall (fun n => n = 1) roi -> (length roi <= 3)%nat ->
  Forall2 same_call cs ds -> Forall (integral_call M) cs -> all_calls roi var M cs <= 2 ^ 53 ->
  (forall c, In c cs -> mean_call c) -> 1 <= lenZ (flat_map mean_values cs) ->
  (forall q, In q (flat_map mean_values cs) -> zq lo <= q <= zq hi)%Qc -> Z.abs lo <= 2 ^ 53 -> Z.abs hi <= 2 ^ 53 ->
  exists x v, (x0 <- fensemble asrt roi per var ;; frun L asrt ds x0) = Ok x /\
    fresult L x = [v] /\ is_finite v = true /\ (IZR lo <= B2R v <= IZR hi)%R.
Proof. exact mean_in_range. Qed.
Print Assumptions C82_mean_of_integers_partial.

Theorem C82_variance_of_integers_partial : forall L M asrt roi per var cs ds,
  library L -> squares L -> 1 <= M -> Forall (fun n => n = 1) roi -> (length roi <= 3)%nat ->
  Forall2 same_call cs ds -> Forall (integral_call M) cs -> all_calls roi var M cs <= 2 ^ 50 ->
  (forall c, In c cs -> mean_call c) -> 2 <= lenZ (flat_map mean_values cs) ->
  exists x v, (x0 <- fensemble asrt roi per var ;; frun L asrt ds x0) = Ok x /\
    fvariance L x = Ok [v] /\ is_finite v = true /\ (0 <= B2R v)%R.
Proof. exact variance_sign. Qed.
Print Assumptions C82_variance_of_integers_partial.

Definition C82_exact : list call := [Mean (mkimg [2] (map zq [4; -7])); MeanMasked (mkimg [2] (map zq [900; 6])) (mkimg [2] [1; 0])].
Definition C82_double : list fcall := [FMean (mkimg [2] (map dz [4; -7])); FMeanMasked (mkimg [2] (map dz [900; 6])) (mkimg [2] [1; 0])].
Example C82_case :
  library plain /\ squares plain /\ Forall2 same_call C82_exact C82_double /\ Forall (integral_call 900) C82_exact /\
  all_calls [1] true 900 C82_exact <= 2 ^ 50 /\ (forall c, In c C82_exact -> mean_call c) /\
  flat_map mean_values C82_exact = map zq [4; -7; 6] /\
  (forall q, In q (flat_map mean_values C82_exact) -> zq (-7) <= q <= zq 6)%Qc.
Proof.
  split; [apply plain_library|]. split; [apply plain_squares|].
  assert (N : forall l, Forall (fun z => Z.abs z <= 900) l -> Forall2 is_number (map zq l) (map dz l)).
  { intros l H. apply C78_numbers. eapply Forall_impl; [|exact H]. cbn. lia. }
  split.
  { constructor; [split; [reflexivity|apply N; repeat constructor; lia]|]. constructor; [|constructor].
    split; [split; [reflexivity|apply N; repeat constructor; lia]|reflexivity]. }
  split.
  { constructor; [split; [split; [repeat constructor; lia|reflexivity]|apply C78_integral; repeat constructor; lia]|]. constructor; [|constructor].
    split; [split; [repeat constructor; lia|reflexivity]|]. split; [apply C78_integral; repeat constructor; lia|]. split; [split; [repeat constructor; lia|reflexivity]|].
    intros x Hx. cbn in Hx. lia. }
  split; [vm_compute; discriminate|]. split; [intros c [<-|[<-|[]]]; [exact I|exists [2]; split; [split; reflexivity|split; [split; reflexivity|]]; intros x Hx; cbn in Hx; lia]|]. split; [reflexivity|].
  intros q [<-|[<-|[<-|[]]]]; split; vm_compute; discriminate.
Qed.
