(** * Properties_LinealOrder: C85, C86, C87, C88

    See properties.jsonl for the English statements; the specification is in SpecEnsemble.v,
    SpecAlgebra.v and SpecLineal.v. *)

From Coq Require Import ZArith QArith Qcanon List Bool Lia.
From Verif Require Import Base SpecCluster SpecDilate SpecPath Path Ensemble SpecEnsemble SpecAlgebra SpecLineal
  DerivedLineal LinealCover LinealTop.
Import ListNotations.
Open Scope Z_scope.

(** ** C85 *)
Theorem C85_L_below_S2 : forall asrt per var roi shape f mode,
  shapes per roi shape -> is_image shape f -> walkable mode roi ->
  exists e e', fresh asrt roi per var (CallL f mode) = Ok e /\
    fresh asrt roi per var (CallS2 (indicator f) (indicator f) None) = Ok e' /\
    forall r, pixel roi r -> exists l s, result_at e r = Exact l /\ result_at e' r = Exact s /\
      (0 <= l)%Qc /\ (l <= s)%Qc /\ (l <= phase_fraction shape (i_vals f))%Qc.
Proof. exact L_below. Qed.
Print Assumptions C85_L_below_S2.

Example C85_case :
  let shown := fun v => match v with Exact q => this q | _ => 0%Q end in
  (e <- fresh true [5] true true (CallL (mkimg [5] [1;1;0;1;1]) Bresenham) ;; Ok (map shown (result e))) =
    Ok [2 # 5; 3 # 5; 4 # 5; 3 # 5; 2 # 5]%Q /\
  (e <- fresh true [5] true true (CallS2 (indicator (mkimg [5] [1;1;0;1;1])) (indicator (mkimg [5] [1;1;0;1;1])) None) ;; Ok (map shown (result e))) =
    Ok [3 # 5; 3 # 5; 4 # 5; 3 # 5; 3 # 5]%Q /\
  Qeq (phase_fraction [5] [1;1;0;1;1]) (4 # 5).
Proof. cbv zeta. split; [vm_compute; reflexivity|]. split; [vm_compute; reflexivity|]. vm_compute. reflexivity. Qed.

(** ** C86 *)
Theorem C86_L_monotone : forall asrt per var roi shape f f' mode,
  shapes per roi shape -> is_image shape f -> is_image shape f' -> walkable mode roi ->
  (forall p, pixel shape p -> zn (i_vals f) p <> 0 -> zn (i_vals f') p <> 0) ->
  exists e e', fresh asrt roi per var (CallL f mode) = Ok e /\ fresh asrt roi per var (CallL f' mode) = Ok e' /\
    forall r, pixel roi r -> norm_at e r = norm_at e' r /\ (first_at e r <= first_at e' r)%Qc /\
      exists l l', result_at e r = Exact l /\ result_at e' r = Exact l' /\ (l <= l')%Qc.
Proof. exact L_mono. Qed.
Print Assumptions C86_L_monotone.

Example C86_case :
  (e <- fresh true [3; 3] false true (CallL (mkimg [2; 2] [1;0; 7;1]) full) ;; Ok (map this (data_first e), map this (norm e))) =
    Ok (map inject_Z [0; 3; 0; 1; 24; 1; 0; 3; 1], map inject_Z [4; 12; 4; 4; 32; 4; 4; 12; 4]) /\
  (e <- fresh true [3; 3] false true (CallL (mkimg [2; 2] [1;2; 7;1]) full) ;; Ok (map this (data_first e), map this (norm e))) =
    Ok (map inject_Z [1; 6; 1; 2; 32; 2; 1; 6; 1], map inject_Z [4; 12; 4; 4; 32; 4; 4; 12; 4]) /\
  (forall p, pixel [2; 2] p -> zn [1;0; 7;1] p <> 0 -> zn [1;2; 7;1] p <> 0).
Proof.
  split; [vm_compute; reflexivity|]. split; [vm_compute; reflexivity|]. unfold pixel. cbn [zprod]. intros p Hp.
  assert (p = 0 \/ p = 1 \/ p = 2 \/ p = 3) as [->|[->|[->| ->]]] by lia; discriminate.
Qed.

(** ** C87 *)
Theorem C87_L_defined_everywhere : forall per roi shape mode,
  shapes per roi shape -> coverable mode roi -> (exists n, In n roi /\ 1 < n) ->
  forall asrt var f, is_image shape f -> exists e, fresh asrt roi per var (CallL f mode) = Ok e /\
    forall r, pixel roi r -> exists c, 1 <= c /\ norm_at e r = zq (c * zprod shape).
Proof. exact L_norm. Qed.
Print Assumptions C87_L_defined_everywhere.

(** Without a background the lineal path function is one if the image is periodic ... *)
Theorem C87_L_uniform_partial : forall asrt var roi shape f mode,
  shapes true roi shape -> is_image shape f -> coverable mode roi -> (exists n, In n roi /\ 1 < n) ->
  (forall p, pixel shape p -> zn (i_vals f) p <> 0) ->
  exists e, fresh asrt roi true var (CallL f mode) = Ok e /\ forall r, pixel roi r -> result_at e r = Exact 1%Qc.
Proof. exact L_full. Qed.
Print Assumptions C87_L_uniform_partial.

(** ... and not otherwise: walks that leave the image count as blocked. *)
Theorem C87_L_uniform_refuted : exists roi shape f e, shapes false roi shape /\ is_image shape f /\ coverable Bresenham roi /\
  (forall p, pixel shape p -> zn (i_vals f) p <> 0) /\
  fresh true roi false true (CallL f Bresenham) = Ok e /\ exists r, pixel roi r /\ result_at e r <> Exact 1%Qc.
Proof. exact L_full_open. Qed.
Print Assumptions C87_L_uniform_refuted.

Example C87_case :
  (e <- fresh true [3; 4] true true (CallL (mkimg [3; 3] [1;2;3; 4;5;6; 7;8;9]) Bresenham) ;; Ok (map this (norm e))) =
    Ok (map inject_Z [9; 9; 18; 9; 9; 90; 9; 9; 9; 9; 18; 9]) /\
  coverable Bresenham [3; 4] /\ coverable full [3; 5; 1] /\ shapes true [3; 4] [3; 3].
Proof.
  split; [vm_compute; reflexivity|]. split; [repeat (constructor; [lia|]); constructor|]. split; [repeat (constructor; [lia|]); constructor|].
  split; [reflexivity|]. split; [cbn; lia|]. split; [repeat (constructor; [lia|]); constructor|]. split; [repeat (constructor; [lia|]); constructor|].
  intros _. vm_compute. repeat split; discriminate.
Qed.

(** ** C88 *)

(** In one dimension the value at distance [t] is the fraction of pixels from which a stretch
    to distance [t] is completely in the phase. *)
Theorem C88_L_line : forall asrt per var k n f mode,
  shapes per [k] [n] -> is_image [n] f -> coverable mode [k] -> 1 < k ->
  exists e, fresh asrt [k] per var (CallL f mode) = Ok e /\
    forall r, 0 <= r < k ->
      result_at e r = Exact (zq (lenZ (filter (stretch per n (i_vals f) (r - (k - 1) / 2)) (zrange 0 n))) / zq n)%Qc.
Proof. exact L_1d. Qed.
Print Assumptions C88_L_line.

Theorem C88_L_line_decays_and_is_even : forall asrt per var k n f mode,
  shapes per [k] [n] -> is_image [n] f -> coverable mode [k] -> 1 < k ->
  exists e, fresh asrt [k] per var (CallL f mode) = Ok e /\
    forall r r', 0 <= r < k -> 0 <= r' < k -> let t := r - (k - 1) / 2 in let t' := r' - (k - 1) / 2 in
      exists l l', result_at e r = Exact l /\ result_at e r' = Exact l' /\
        (0 <= t <= t' \/ t' <= t <= 0 -> (l' <= l)%Qc) /\ (t' = - t -> l' = l).
Proof. exact L_1d_laws. Qed.
Print Assumptions C88_L_line_decays_and_is_even.

(** In two dimensions opposite offsets need not have the same value, even if the image is
    periodic. *)
Theorem C88_L_even_refuted : exists roi shape f e r r', shapes true roi shape /\ is_image shape f /\ coverable Bresenham roi /\
  fresh true roi true true (CallL f Bresenham) = Ok e /\ pixel roi r /\ pixel roi r' /\
  offset roi r' = opposite (offset roi r) /\ result_at e r' <> result_at e r.
Proof. exact L_not_even. Qed.
Print Assumptions C88_L_even_refuted.

Example C88_case :
  filter (stretch false 5 [1;1;0;1;1] 1) (zrange 0 5) = [0; 3] /\ filter (stretch true 5 [1;1;0;1;1] 1) (zrange 0 5) = [0; 3; 4] /\
  filter (stretch true 5 [1;1;0;1;1] (-2)) (zrange 0 5) = [0; 1] /\ coverable actual [5] /\ shapes false [5] [2].
Proof.
  do 3 (split; [vm_compute; reflexivity|]). split; [repeat (constructor; [lia|]); constructor|].
  split; [reflexivity|]. split; [cbn; lia|]. split; [repeat (constructor; [lia|]); constructor|]. split; [repeat (constructor; [lia|]); constructor|]. discriminate.
Qed.
