(** * Properties_Ensemble: C32 - C39, C43 - C46

    Statements only; each is closed by a lemma proved elsewhere.  Data of the ensemble is
    exact (rational); a root is kept as [Root q]. *)

From Coq Require Import ZArith QArith Qcanon Qreals Reals List Bool Lia Permutation.
From Verif Require Import Base Array3 Path SpecCluster SpecDilate SpecPath Ensemble SpecEnsemble
  EnsembleTop EnsembleRun EnsembleDist EnsembleMore EnsembleRefute.
Import ListNotations.
Open Scope Z_scope.

(** ** C32 *)
Theorem C32_padding : forall n, 1 <= n < 2 ^ 62 ->
  fst (pad_axis n) + snd (pad_axis n) = n - 1 /\
  fst (pad_axis n) <= snd (pad_axis n) <= fst (pad_axis n) + 1.
Proof. exact padding. Qed.
Print Assumptions C32_padding.

Theorem C32_distance_along_axis : forall asrt per var roi e axis,
  reachable asrt roi per var e -> Forall (fun n => 1 <= n < 2 ^ 62) roi -> 0 <= axis < lenZ roi ->
  exists d, distance_axis asrt e axis = Ok d /\ lenZ d = zprod roi /\
    forall r, pixel roi r ->
      let k := nth (Z.to_nat axis) (coords roi r) 0 in
      let n := nth (Z.to_nat axis) roi 0 in
      qn d r = zq (k - (n - 1) / 2).
Proof. exact distance_axis_centred. Qed.
Print Assumptions C32_distance_along_axis.

Theorem C32_no_such_axis : forall roi per var e axis, Forall (fun n => 0 <= n) roi ->
  reachable true roi per var e -> lenZ roi <= axis -> distance_axis true e axis = Throw.
Proof. exact distance_axis_throw. Qed.
Print Assumptions C32_no_such_axis.

Example C32_case :
  (e <- ensemble true [2; 5] false true ;; d <- distance_axis true e 1 ;; Ok (map this d)) =
  Ok (map inject_Z [-2; -1; 0; 1; 2; -2; -1; 0; 1; 2]) /\
  (e <- ensemble true [2; 4] false true ;; d <- distance_axis true e 1 ;; Ok (map this d)) =
  Ok (map inject_Z [-1; 0; 1; 2; -1; 0; 1; 2]).
Proof. split; vm_compute; reflexivity. Qed.

Example C32_reachable : exists e, reachable true [2; 5] false true e.
Proof. eexists. eexists. exists []. split; reflexivity. Qed.

(** ** C33 *)
Theorem C33_distance : forall asrt per var roi e,
  reachable asrt roi per var e -> Forall (fun n => 1 <= n < 2 ^ 62) roi ->
  exists d, distance asrt e = Ok d /\ lenZ d = zprod roi /\
    forall r, pixel roi r -> nth (Z.to_nat r) d NaN = Root (length2 roi (fun _ => 1%Qc) r).
Proof. exact distance_reach. Qed.
Print Assumptions C33_distance.

Theorem C33_distance_scaled : forall asrt per var roi e h,
  reachable asrt roi per var e -> Forall (fun n => 1 <= n < 2 ^ 62) roi -> lenZ h = lenZ roi ->
  exists d, distance_h asrt e h = Ok d /\ lenZ d = zprod roi /\
    forall r, pixel roi r -> nth (Z.to_nat r) d NaN = Root (length2 roi (qn h) r).
Proof. exact distance_h_reach. Qed.
Print Assumptions C33_distance_scaled.

Theorem C33_distance_along_axis_scaled : forall asrt per var roi e h axis,
  reachable asrt roi per var e -> Forall (fun n => 1 <= n < 2 ^ 62) roi -> lenZ h = lenZ roi ->
  0 <= axis < lenZ roi ->
  exists d, distance_h_axis asrt e h axis = Ok d /\ lenZ d = zprod roi /\
    forall r, pixel roi r -> qn d r = (zq (nth (Z.to_nat axis) (offset roi r) 0%Z) * qn h axis)%Qc.
Proof. exact distance_h_axis_reach. Qed.
Print Assumptions C33_distance_along_axis_scaled.

(** The same as a real number (axioms of the reals of the standard library). *)
Theorem C33_length_is_euclidean : forall roi h r,
  (0 <= real (Root (length2 roi h r)) /\
   real (Root (length2 roi h r)) * real (Root (length2 roi h r)) = Q2R (this (length2 roi h r)))%R.
Proof. exact length2_real. Qed.
Print Assumptions C33_length_is_euclidean.

Example C33_case :
  (e <- ensemble true [3; 4] false true ;; d <- distance_h true e [zq 2; zq 3] ;;
   Ok (map (fun v => match v with Root q => this q | _ => (-1)%Q end) d)) =
  Ok (map inject_Z [13; 4; 13; 40;  9; 0; 9; 36;  13; 4; 13; 40]).
Proof. vm_compute. reflexivity. Qed.

(** ** C34 *)
Theorem C34_S2_masked : forall asrt var roi shape f g fm gm, shapes false roi shape ->
  is_image shape f -> is_image shape g -> is_mask shape fm -> is_mask shape gm ->
  exists e, fresh asrt roi false var (CallS2 f g (Some (fm, gm))) = Ok e /\ roi_shaped roi e /\
    forall r, pixel roi r ->
      let l := filter (unmasked (i_vals fm) (i_vals gm)) (pairs false shape (offset roi r)) in
      first_at e r = sum_over l (fun pq => qn (i_vals f) (fst pq) * qn (i_vals g) (snd pq))%Qc /\
      norm_at e r = zq (lenZ l) /\ result_at e r = Exact (quotient (first_at e r) (norm_at e r)).
Proof. exact S2_masked. Qed.
Print Assumptions C34_S2_masked.

Theorem C34_S2_unmasked : forall asrt var roi shape f g, shapes false roi shape ->
  is_image shape f -> is_image shape g ->
  exists e, fresh asrt roi false var (CallS2 f g None) = Ok e /\ roi_shaped roi e /\
    forall r, pixel roi r ->
      let l := pairs false shape (offset roi r) in
      first_at e r = sum_over l (fun pq => qn (i_vals f) (fst pq) * qn (i_vals g) (snd pq))%Qc /\
      norm_at e r = zq (lenZ l) /\ result_at e r = Exact (quotient (first_at e r) (norm_at e r)).
Proof. exact S2_unmasked. Qed.
Print Assumptions C34_S2_unmasked.

Example C34_case :
  (e <- fresh true [3] false true (CallS2 (q1 [1; 2; 3; 4]) (q1 [1; 1; 2; 5]) (Some (z1 [0; 0; 1; 0], z1 [0; 1; 0; 0]))) ;;
   Ok (map this (data_first e), map this (norm e))) =
  Ok (map inject_Z [2 + 8; 1 + 20; 4], map inject_Z [2; 2; 1]) /\ shapes false [3] [4].
Proof.
  split; [vm_compute; reflexivity|]. split; auto. split; [cbn; lia|]. split; [constructor; [lia|constructor]|].
  split; [constructor; [lia|constructor]|discriminate].
Qed.

(** ** C35 *)
Theorem C35_S2_periodic : forall asrt var roi shape f g, shapes true roi shape ->
  is_image shape f -> is_image shape g ->
  exists e, fresh asrt roi true var (CallS2 f g None) = Ok e /\ roi_shaped roi e /\
    forall r, pixel roi r ->
      first_at e r = sum_over (pairs true shape (offset roi r)) (fun pq => qn (i_vals f) (fst pq) * qn (i_vals g) (snd pq))%Qc /\
      norm_at e r = zq (zprod shape) /\ result_at e r = Exact (first_at e r / zq (zprod shape))%Qc.
Proof. exact S2_periodic. Qed.
Print Assumptions C35_S2_periodic.

Example C35_case :
  (e <- fresh true [3] true true (CallS2 (q1 [1; 2; 3]) (q1 [1; 1; 5]) None) ;;
   Ok (map this (data_first e), map this (norm e))) =
  Ok (map inject_Z [5 + 2 + 3; 1 + 2 + 15; 1 + 10 + 3], map inject_Z [3; 3; 3]) /\ shapes true [3] [3].
Proof. split; [vm_compute; reflexivity|exact shapes3]. Qed.

(** ** C36: true when not periodic; when periodic true for the first image of [S2] and [C2] *)
Theorem C36_masked_ignored_partial : forall asrt per var roi shape f f' g g' fm gm, shapes per roi shape ->
  same_unmasked shape fm f f' -> same_unmasked shape gm g g' -> per = false \/ g = g' ->
  same_data (fresh asrt roi per var (CallS2 f g (Some (fm, gm)))) (fresh asrt roi per var (CallS2 f' g' (Some (fm, gm)))).
Proof. intros asrt per var roi shape f f' g g' fm gm HS. exact (S2_ignores asrt per var roi shape HS f f' g g' fm gm). Qed.
Print Assumptions C36_masked_ignored_partial.

Theorem C36_masked_ignored_C2_partial : forall asrt per var roi shape f f' g g' fm gm, shapes per roi shape ->
  same_unmasked shape fm f f' -> same_unmasked shape gm g g' -> per = false \/ g = g' ->
  same_data (fresh asrt roi per var (CallC2 f g (Some (fm, gm)))) (fresh asrt roi per var (CallC2 f' g' (Some (fm, gm)))).
Proof. intros asrt per var roi shape f f' g g' fm gm HS. exact (C2_ignores asrt per var roi shape HS f f' g g' fm gm). Qed.
Print Assumptions C36_masked_ignored_C2_partial.

Theorem C36_masked_ignored_W2_partial : forall asrt var roi shape w f f' fm, shapes false roi shape ->
  is_image shape w -> same_unmasked shape fm f f' ->
  same_data (fresh asrt roi false var (CallW2 w f (Some fm))) (fresh asrt roi false var (CallW2 w f' (Some fm))).
Proof. intros asrt var roi shape w f f' fm HS Hw Hf. exact (W2_ignores asrt false var roi shape HS w f f' fm Hw Hf eq_refl). Qed.
Print Assumptions C36_masked_ignored_W2_partial.

Theorem C36_masked_ignored_heightheight_partial : forall asrt var roi shape f f' fm, shapes false roi shape ->
  same_unmasked shape fm f f' ->
  same_data (fresh asrt roi false var (CallHH f (Some fm))) (fresh asrt roi false var (CallHH f' (Some fm))).
Proof. intros asrt var roi shape f f' fm HS Hf. exact (hh_ignores asrt false var roi shape HS f f' fm Hf eq_refl). Qed.
Print Assumptions C36_masked_ignored_heightheight_partial.

(** ... and false when periodic: a masked pixel that is seen through the boundary counts. *)
Theorem C36_masked_ignored_refuted : exists roi shape f g g' fm gm r e e',
  shapes true roi shape /\ is_image shape f /\ is_mask shape fm /\ same_unmasked shape gm g g' /\ pixel roi r /\
  fresh true roi true true (CallS2 f g (Some (fm, gm))) = Ok e /\
  fresh true roi true true (CallS2 f g' (Some (fm, gm))) = Ok e' /\ first_at e r <> first_at e' r.
Proof. exact S2_masked_periodic. Qed.
Print Assumptions C36_masked_ignored_refuted.

Theorem C36_masked_ignored_C2_refuted : exists roi shape f g g' fm gm r e e',
  shapes true roi shape /\ is_image shape f /\ is_mask shape fm /\ same_unmasked shape gm g g' /\ pixel roi r /\
  fresh true roi true true (CallC2 f g (Some (fm, gm))) = Ok e /\
  fresh true roi true true (CallC2 f g' (Some (fm, gm))) = Ok e' /\ first_at e r <> first_at e' r.
Proof. exact C2_masked_periodic. Qed.
Print Assumptions C36_masked_ignored_C2_refuted.

Theorem C36_masked_ignored_W2_refuted : exists roi shape w f f' fm r e e',
  shapes true roi shape /\ is_image shape w /\ same_unmasked shape fm f f' /\ pixel roi r /\
  fresh true roi true true (CallW2 w f (Some fm)) = Ok e /\
  fresh true roi true true (CallW2 w f' (Some fm)) = Ok e' /\ first_at e r <> first_at e' r.
Proof. exact W2_masked_periodic. Qed.
Print Assumptions C36_masked_ignored_W2_refuted.

Theorem C36_masked_ignored_heightheight_refuted : exists roi shape f f' fm r e e',
  shapes true roi shape /\ same_unmasked shape fm f f' /\ pixel roi r /\
  fresh true roi true true (CallHH f (Some fm)) = Ok e /\
  fresh true roi true true (CallHH f' (Some fm)) = Ok e' /\ first_at e r <> first_at e' r.
Proof. exact hh_masked_periodic. Qed.
Print Assumptions C36_masked_ignored_heightheight_refuted.

(** What the code computes instead, in both modes: the mask of the second pixel is only looked
    at when it is not seen through the boundary ([seen]). *)
Theorem C36_S2_as_computed : forall asrt per var roi shape f g fm gm, shapes per roi shape ->
  is_image shape f -> is_image shape g -> is_mask shape fm -> is_mask shape gm ->
  exists e, fresh asrt roi per var (CallS2 f g (Some (fm, gm))) = Ok e /\ roi_shaped roi e /\
    forall r, pixel roi r ->
      let l := filter (seen shape (i_vals fm) (i_vals gm) (offset roi r)) (pairs per shape (offset roi r)) in
      first_at e r = sum_over l (fun pq => qn (i_vals f) (fst pq) * qn (i_vals g) (snd pq))%Qc /\
      norm_at e r = zq (lenZ l) /\ result_at e r = Exact (quotient (first_at e r) (norm_at e r)).
Proof. intros asrt per var roi shape f g fm gm HS. exact (S2_exact asrt per var roi shape HS f g fm gm). Qed.
Print Assumptions C36_S2_as_computed.

Theorem C36_C2_as_computed : forall asrt per var roi shape f g fm gm, shapes per roi shape ->
  is_image shape f -> is_image shape g -> is_mask shape fm -> is_mask shape gm ->
  exists e, fresh asrt roi per var (CallC2 f g (Some (fm, gm))) = Ok e /\ roi_shaped roi e /\
    forall r, pixel roi r ->
      let l := filter (seen shape (i_vals fm) (i_vals gm) (offset roi r)) (pairs per shape (offset roi r)) in
      first_at e r = zq (lenZ (filter (same_label (i_vals f) (i_vals g)) l)) /\
      norm_at e r = zq (lenZ l) /\ result_at e r = Exact (quotient (first_at e r) (norm_at e r)).
Proof. intros asrt per var roi shape f g fm gm HS. exact (C2_exact asrt per var roi shape HS f g fm gm). Qed.
Print Assumptions C36_C2_as_computed.

Theorem C36_W2_as_computed : forall asrt per var roi shape w f fm, shapes per roi shape ->
  is_image shape w -> is_image shape f -> is_mask shape fm ->
  exists e, fresh asrt roi per var (CallW2 w f (Some fm)) = Ok e /\ roi_shaped roi e /\
    forall r, pixel roi r ->
      let l := filter (seen shape [] (i_vals fm) (offset roi r)) (pairs per shape (offset roi r)) in
      first_at e r = sum_over l (fun pq => qn (i_vals w) (fst pq) * qn (i_vals f) (snd pq))%Qc /\
      norm_at e r = sum_over l (fun pq => qn (i_vals w) (fst pq)) /\
      ((0 < norm_at e r)%Qc -> result_at e r = Exact (first_at e r / norm_at e r)%Qc).
Proof. intros asrt per var roi shape w f fm HS. exact (W2_exact asrt per var roi shape HS w f fm). Qed.
Print Assumptions C36_W2_as_computed.

Theorem C36_heightheight_as_computed : forall asrt per var roi shape f fm, shapes per roi shape ->
  is_image shape f -> is_mask shape fm ->
  exists e, fresh asrt roi per var (CallHH f (Some fm)) = Ok e /\ roi_shaped roi e /\
    forall r, pixel roi r ->
      let l := filter (seen shape (i_vals fm) (i_vals fm) (offset roi r)) (pairs per shape (offset roi r)) in
      first_at e r = sum_over l (sqdiff (i_vals f)) /\
      second_at e r = (if var then sum_over l (fun pq => sqdiff (i_vals f) pq * sqdiff (i_vals f) pq)%Qc else 0%Qc) /\
      norm_at e r = zq (lenZ l) /\ result_at e r = Root (quotient (first_at e r) (norm_at e r)).
Proof. intros asrt per var roi shape f fm HS. exact (hh_exact asrt per var roi shape HS f fm). Qed.
Print Assumptions C36_heightheight_as_computed.

Example C36_case : same_unmasked [3] (z1 [1; 0; 0]) (q1 [5; 0; 0]) (q1 [7; 0; 0]) /\
  same_data (fresh true [3] false true (CallHH (q1 [5; 0; 0]) (Some (z1 [1; 0; 0]))))
            (fresh true [3] false true (CallHH (q1 [7; 0; 0]) (Some (z1 [1; 0; 0])))).
Proof.
  assert (H : same_unmasked [3] (z1 [1; 0; 0]) (q1 [5; 0; 0]) (q1 [7; 0; 0])).
  { apply same_q1; [exact mask100|reflexivity|reflexivity|repeat constructor; cbn; intros; try reflexivity; discriminate]. }
  split; auto. apply (C36_masked_ignored_heightheight_partial true true [3] [3]); auto.
  split; auto. split; [cbn; lia|]. split; [constructor; [lia|constructor]|]. split; [constructor; [lia|constructor]|discriminate].
Qed.

(** ** C37 *)
Theorem C37_C2_masked : forall asrt var roi shape f g fm gm, shapes false roi shape ->
  is_image shape f -> is_image shape g -> is_mask shape fm -> is_mask shape gm ->
  exists e, fresh asrt roi false var (CallC2 f g (Some (fm, gm))) = Ok e /\ roi_shaped roi e /\
    forall r, pixel roi r ->
      let l := filter (unmasked (i_vals fm) (i_vals gm)) (pairs false shape (offset roi r)) in
      first_at e r = zq (lenZ (filter (same_label (i_vals f) (i_vals g)) l)) /\
      norm_at e r = zq (lenZ l) /\ result_at e r = Exact (quotient (first_at e r) (norm_at e r)).
Proof. exact C2_masked. Qed.
Print Assumptions C37_C2_masked.

Theorem C37_C2_unmasked : forall asrt var roi shape f g, shapes false roi shape ->
  is_image shape f -> is_image shape g ->
  exists e, fresh asrt roi false var (CallC2 f g None) = Ok e /\ roi_shaped roi e /\
    forall r, pixel roi r ->
      let l := pairs false shape (offset roi r) in
      first_at e r = zq (lenZ (filter (same_label (i_vals f) (i_vals g)) l)) /\
      norm_at e r = zq (lenZ l) /\ result_at e r = Exact (quotient (first_at e r) (norm_at e r)).
Proof. exact C2_unmasked. Qed.
Print Assumptions C37_C2_unmasked.

Theorem C37_C2_periodic : forall asrt var roi shape f g, shapes true roi shape ->
  is_image shape f -> is_image shape g ->
  exists e, fresh asrt roi true var (CallC2 f g None) = Ok e /\ roi_shaped roi e /\
    forall r, pixel roi r ->
      first_at e r = zq (lenZ (filter (same_label (i_vals f) (i_vals g)) (pairs true shape (offset roi r)))) /\
      norm_at e r = zq (zprod shape) /\ result_at e r = Exact (quotient (first_at e r) (norm_at e r)).
Proof. exact C2_periodic. Qed.
Print Assumptions C37_C2_periodic.

Example C37_case :
  (e <- fresh true [3] true true (CallC2 (z1 [1; 1; 0; 2]) (z1 [1; 1; 0; 2]) None) ;;
   Ok (map this (data_first e), map this (norm e))) = Ok (map inject_Z [1; 3; 1], map inject_Z [4; 4; 4]) /\
  (e <- fresh true [3] false true (CallC2 (z1 [1; 1; 1; 2]) (z1 [1; 1; 1; 2]) (Some (z1 [0; 1; 0; 0], z1 [0; 0; 0; 0]))) ;;
   Ok (map this (data_first e), map this (norm e))) = Ok (map inject_Z [1; 3; 1], map inject_Z [2; 3; 2]).
Proof. split; vm_compute; reflexivity. Qed.

(** ** C38 *)
Theorem C38_W2_masked : forall asrt var roi shape w f fm, shapes false roi shape ->
  is_image shape w -> is_image shape f -> is_mask shape fm ->
  exists e, fresh asrt roi false var (CallW2 w f (Some fm)) = Ok e /\ roi_shaped roi e /\
    forall r, pixel roi r ->
      let l := filter (fun pq => zn (i_vals fm) (snd pq) =? 0) (pairs false shape (offset roi r)) in
      first_at e r = sum_over l (fun pq => qn (i_vals w) (fst pq) * qn (i_vals f) (snd pq))%Qc /\
      norm_at e r = sum_over l (fun pq => qn (i_vals w) (fst pq)) /\
      ((0 < norm_at e r)%Qc -> result_at e r = Exact (first_at e r / norm_at e r)%Qc).
Proof. exact W2_masked. Qed.
Print Assumptions C38_W2_masked.

Theorem C38_W2_unmasked : forall asrt var roi shape w f, shapes false roi shape ->
  is_image shape w -> is_image shape f ->
  exists e, fresh asrt roi false var (CallW2 w f None) = Ok e /\ roi_shaped roi e /\
    forall r, pixel roi r ->
      let l := pairs false shape (offset roi r) in
      first_at e r = sum_over l (fun pq => qn (i_vals w) (fst pq) * qn (i_vals f) (snd pq))%Qc /\
      norm_at e r = sum_over l (fun pq => qn (i_vals w) (fst pq)) /\
      ((0 < norm_at e r)%Qc -> result_at e r = Exact (first_at e r / norm_at e r)%Qc).
Proof. exact W2_unmasked. Qed.
Print Assumptions C38_W2_unmasked.

(** Without a positive total weight the sum is not divided. *)
Theorem C38_W2_no_weight : forall asrt per var roi shape w f fm, shapes per roi shape ->
  is_image shape w -> is_image shape f -> is_mask shape fm ->
  exists e, fresh asrt roi per var (CallW2 w f (Some fm)) = Ok e /\
    forall r, pixel roi r -> (~ (0 < norm_at e r)%Qc -> result_at e r = Exact (first_at e r)).
Proof. exact W2_result. Qed.
Print Assumptions C38_W2_no_weight.

Theorem C38_W2_periodic : forall asrt var roi shape w f, shapes true roi shape ->
  is_image shape w -> is_image shape f ->
  exists e, fresh asrt roi true var (CallW2 w f None) = Ok e /\ roi_shaped roi e /\
    forall r, pixel roi r ->
      first_at e r = sum_over (pairs true shape (offset roi r)) (fun pq => qn (i_vals w) (fst pq) * qn (i_vals f) (snd pq))%Qc /\
      norm_at e r = sum_over (pairs true shape (offset roi r)) (fun pq => qn (i_vals w) (fst pq)) /\
      ((0 < norm_at e r)%Qc -> result_at e r = Exact (first_at e r / norm_at e r)%Qc).
Proof. exact W2_periodic. Qed.
Print Assumptions C38_W2_periodic.

Example C38_case :
  (e <- fresh true [3] false true (CallW2 (q1 [1; 0; 2; 0]) (q1 [3; 4; 5; 6]) (Some (z1 [0; 1; 0; 0]))) ;;
   Ok (map this (data_first e), map this (norm e))) = Ok (map inject_Z [0; 3 + 10; 12], map inject_Z [0; 3; 2]).
Proof. vm_compute. reflexivity. Qed.

(** ** C39 *)
Theorem C39_heightheight_masked : forall asrt var roi shape f fm, shapes false roi shape ->
  is_image shape f -> is_mask shape fm ->
  exists e, fresh asrt roi false var (CallHH f (Some fm)) = Ok e /\ roi_shaped roi e /\
    forall r, pixel roi r ->
      let l := filter (unmasked (i_vals fm) (i_vals fm)) (pairs false shape (offset roi r)) in
      first_at e r = sum_over l (sqdiff (i_vals f)) /\ norm_at e r = zq (lenZ l) /\
      result_at e r = Root (quotient (first_at e r) (norm_at e r)) /\
      (zero_offset (offset roi r) -> result_at e r = Root 0%Qc) /\
      (forall r', pixel roi r' -> offset roi r' = opposite (offset roi r) ->
         first_at e r' = first_at e r /\ norm_at e r' = norm_at e r /\ result_at e r' = result_at e r).
Proof. exact hh_masked. Qed.
Print Assumptions C39_heightheight_masked.

Theorem C39_heightheight_unmasked : forall asrt var roi shape f, shapes false roi shape -> is_image shape f ->
  exists e, fresh asrt roi false var (CallHH f None) = Ok e /\ roi_shaped roi e /\
    forall r, pixel roi r ->
      let l := pairs false shape (offset roi r) in
      first_at e r = sum_over l (sqdiff (i_vals f)) /\
      norm_at e r = zq (lenZ l) /\ result_at e r = Root (quotient (first_at e r) (norm_at e r)).
Proof. exact hh_unmasked. Qed.
Print Assumptions C39_heightheight_unmasked.

Theorem C39_heightheight_periodic : forall asrt var roi shape f, shapes true roi shape -> is_image shape f ->
  exists e, fresh asrt roi true var (CallHH f None) = Ok e /\ roi_shaped roi e /\
    forall r, pixel roi r ->
      first_at e r = sum_over (pairs true shape (offset roi r)) (sqdiff (i_vals f)) /\
      norm_at e r = zq (zprod shape) /\
      result_at e r = Root (quotient (first_at e r) (norm_at e r)) /\
      (zero_offset (offset roi r) -> result_at e r = Root 0%Qc) /\
      (forall r', pixel roi r' -> offset roi r' = opposite (offset roi r) ->
         first_at e r' = first_at e r /\ norm_at e r' = norm_at e r /\ result_at e r' = result_at e r).
Proof. exact hh_periodic. Qed.
Print Assumptions C39_heightheight_periodic.

Example C39_case :
  (e <- fresh true [3] true true (CallHH (q1 [1; 3; 7]) None) ;;
   Ok (map this (data_first e), map this (norm e))) = Ok (map inject_Z [36 + 4 + 16; 0; 4 + 16 + 36], map inject_Z [3; 3; 3]) /\
  offset [3] 0 = [-1] /\ offset [3] 1 = [0] /\ offset [3] 2 = opposite (offset [3] 0).
Proof. split; [vm_compute; reflexivity|]. split; [reflexivity|]. split; reflexivity. Qed.

(** ** C43 *)
Theorem C43_data_add_up : forall asrt roi per var e0 cs e, Forall (fun n => 0 <= n) roi ->
  ensemble asrt roi per var = Ok e0 -> run asrt cs e0 = Ok e ->
  roi_shaped roi e /\
  exists es, Forall2 (fun c ec => fresh asrt roi per var c = Ok ec) cs es /\ sum_of_data roi es e.
Proof. exact add_sum. Qed.
Print Assumptions C43_data_add_up.

Theorem C43_sequence_works : forall asrt roi per var e0 cs, Forall (fun n => 0 <= n) roi ->
  ensemble asrt roi per var = Ok e0 -> one_measure cs ->
  (forall c, In c cs -> exists ec, fresh asrt roi per var c = Ok ec) ->
  exists e, run asrt cs e0 = Ok e.
Proof. exact add_runs. Qed.
Print Assumptions C43_sequence_works.

Theorem C43_order_is_irrelevant : forall asrt roi per var e0 cs cs' e, Forall (fun n => 0 <= n) roi ->
  ensemble asrt roi per var = Ok e0 -> one_measure cs -> Permutation cs cs' -> run asrt cs e0 = Ok e ->
  exists e', run asrt cs' e0 = Ok e' /\
    data_first e' = data_first e /\ data_second e' = data_second e /\ norm e' = norm e /\
    result e' = result e /\ variance e' = variance e.
Proof. exact add_order. Qed.
Print Assumptions C43_order_is_irrelevant.

Example C43_case :
  (e0 <- ensemble true [3] true true ;; e <- run true [CallHH (q1 [1; 3; 7]) None; CallHH (q1 [0; 0; 1]) None] e0 ;;
   Ok (map this (data_first e), map this (norm e))) = Ok (map inject_Z [56 + 2; 0; 56 + 2], map inject_Z [6; 6; 6]).
Proof. vm_compute. reflexivity. Qed.

(** ** C44 *)
Theorem C44_mean_and_variance : forall asrt roi per var e0 cs, Forall (fun n => n = 1) roi -> (length roi <= 3)%nat ->
  ensemble asrt roi per var = Ok e0 -> (forall c, In c cs -> mean_call c) ->
  let l := flat_map mean_values cs in
  exists e, run asrt cs e0 = Ok e /\
    (1 <= lenZ l -> result e = [Exact (average l)]) /\
    (2 <= lenZ l -> variance e = Ok [Exact (sample_variance l)]).
Proof. exact mean_run. Qed.
Print Assumptions C44_mean_and_variance.

Example C44_case :
  (e0 <- ensemble true [1] false true ;;
   e <- run true [Mean (q1 [1; 2]); MeanMasked (q1 [50; 6]) (z1 [1; 0])] e0 ;; v <- variance e ;;
   Ok (map shown (result e), map shown v)) = Ok ([Some 3%Q], [Some 7%Q]) /\
  this (average (map zq [1; 2; 6])) = 3%Q /\ this (sample_variance (map zq [1; 2; 6])) = 7%Q /\
  (forall c, In c [Mean (q1 [1; 2]); MeanMasked (q1 [50; 6]) (z1 [1; 0])] -> mean_call c).
Proof.
  split; [vm_compute; reflexivity|]. split; [vm_compute; reflexivity|]. split; [vm_compute; reflexivity|].
  intros c [<-|[<-|[]]]; cbn [mean_call]; auto. exists [2]. split; [split; reflexivity|]. split; [split; reflexivity|].
  cbn. intros x [<-|[<-|[]]]; auto.
Qed.

(** ** C45 *)
Theorem C45_locked : forall roi per var e0 c cs e, Forall (fun n => 0 <= n) roi ->
  ensemble true roi per var = Ok e0 -> run true (c :: cs) e0 = Ok e ->
  (forall c', In c' cs -> stat_of c' = stat_of c) /\
  (forall c', stat_of c' <> stat_of c -> add true e c' = Throw).
Proof. exact lock_history. Qed.
Print Assumptions C45_locked.

Theorem C45_variance : forall asrt roi per var e0 cs c e, Forall (fun n => 0 <= n) roi ->
  ensemble asrt roi per var = Ok e0 ->
  variance e0 = Throw /\
  (run asrt (cs ++ [c]) e0 = Ok e ->
     (stat_of c <> S_mean -> stat_of c <> S_heightheight -> variance e = Throw) /\
     (stat_of c = S_mean \/ stat_of c = S_heightheight -> exists v, variance e = Ok v)).
Proof. exact variance_history. Qed.
Print Assumptions C45_variance.

Example C45_case :
  (e0 <- ensemble true [1] false true ;; e <- run true [Mean (q1 [1; 2]); Mean (q1 [3])] e0 ;;
   add true e (CallS2 (q1 [1; 2]) (q1 [1; 2]) None)) = Throw /\
  (exists e, (e0 <- ensemble true [1] false true ;; run true [CallS2 (q1 [1; 2]) (q1 [1; 2]) None] e0) = Ok e).
Proof. split; [vm_compute; reflexivity|]. eexists. reflexivity. Qed.

(** ** C46 *)
Theorem C46_S2_probability : forall asrt per var roi shape f fm gm, shapes per roi shape ->
  is_image shape f -> two_phase f -> is_mask shape fm -> is_mask shape gm ->
  exists e, fresh asrt roi per var (CallS2 f f (Some (fm, gm))) = Ok e /\
    forall r, pixel roi r -> exists q, result_at e r = Exact q /\ (0 <= q)%Qc /\ (q <= 1)%Qc.
Proof. exact S2_probability. Qed.
Print Assumptions C46_S2_probability.

Theorem C46_S2_centre : forall asrt per var roi shape f, shapes per roi shape -> is_image shape f -> two_phase f ->
  exists e, fresh asrt roi per var (CallS2 f f None) = Ok e /\
    forall r, pixel roi r -> zero_offset (offset roi r) -> result_at e r = Exact (volume_fraction shape f).
Proof. exact S2_centre. Qed.
Print Assumptions C46_S2_centre.

Theorem C46_S2_maximum_and_symmetry : forall asrt var roi shape f, shapes true roi shape ->
  is_image shape f -> two_phase f ->
  exists e, fresh asrt roi true var (CallS2 f f None) = Ok e /\
    forall r r', pixel roi r -> pixel roi r' ->
      (zero_offset (offset roi r') -> exists q q', result_at e r = Exact q /\ result_at e r' = Exact q' /\ (q <= q')%Qc) /\
      (offset roi r' = opposite (offset roi r) -> result_at e r' = result_at e r).
Proof. exact S2_periodic_shape. Qed.
Print Assumptions C46_S2_maximum_and_symmetry.

Example C46_case :
  (e <- fresh true [3] true true (CallS2 (q1 [1; 1; 0; 1]) (q1 [1; 1; 0; 1]) None) ;; Ok (map shown (result e))) =
  Ok [Some (1 # 2)%Q; Some (3 # 4)%Q; Some (1 # 2)%Q] /\ two_phase (q1 [1; 1; 0; 1]).
Proof.
  split; [vm_compute; reflexivity|]. intros x. cbn. intros [<-|[<-|[<-|[<-|[]]]]]; [right|right|left|right]; apply Qc_is_canon; reflexivity.
Qed.
