(** * Properties_Relations: C89-C92

    Relations between the statistics of periodic images without masks.  Statements only;
    [complement], [plus_offset], [autocorrelations] are defined in SpecRelations,
    [volume_fraction], [zero_offset], ... in SpecEnsemble. *)

From Coq Require Import ZArith QArith Qcanon Qreals Reals List Bool Lia.
From Verif Require Import Base SpecCluster SpecDilate Path Ensemble SpecEnsemble SpecAlgebra SpecRelations DerivedRelations WienerKhinchin.
From Verif Require Structure SpecStructure.
Import ListNotations.
Open Scope Z_scope.

Ltac shapes_tac := unfold shapes; split; [reflexivity|]; split; [cbn; lia|]; split; [repeat constructor; lia|]; split; [repeat constructor; lia|];
  intros; vm_compute; intuition discriminate.

(** ** C89 Exchanging the phases; weights *)

(** S2(1 - f, 1 - g) = 1 - <f> - <g> + S2(f, g). *)
Theorem C89_complement :
  forall asrt var roi shape f g, shapes true roi shape -> is_image shape f -> is_image shape g ->
  exists e e', fresh asrt roi true var (CallS2 f g None) = Ok e /\
    fresh asrt roi true var (CallS2 (complement f) (complement g) None) = Ok e' /\
    forall r, pixel roi r -> exists q, result_at e r = Exact q /\
      result_at e' r = Exact (1 - volume_fraction shape f - volume_fraction shape g + q)%Qc.
Proof. exact S2_complement. Qed.
Print Assumptions C89_complement.

(** W2(w, f) = S2(w, f) / <w>. *)
Theorem C89_W2_from_S2 :
  forall asrt var roi shape w f, shapes true roi shape -> is_image shape w -> is_image shape f ->
  (0 < volume_fraction shape w)%Qc ->
  exists e e', fresh asrt roi true var (CallS2 w f None) = Ok e /\ fresh asrt roi true var (CallW2 w f None) = Ok e' /\
    forall r, pixel roi r -> exists q, result_at e r = Exact q /\ result_at e' r = Exact (q / volume_fraction shape w)%Qc.
Proof. exact W2_from_S2. Qed.
Print Assumptions C89_W2_from_S2.

Definition C89_image : img Qc := mkimg [5] (map zq [1; 1; 0; 1; 0]).
Definition C89_other : img Qc := mkimg [5] (map zq [0; 2; 3; 1; 4]).
Definition exact_values (l : list value) : list Q := map (fun v => match v with Exact q => this q | _ => 0%Q end) l.

Example C89_case :
  shapes true [3] [5] /\ is_image [5] C89_image /\ is_image [5] C89_other /\ (0 < volume_fraction [5] C89_image)%Qc /\
  this (volume_fraction [5] C89_image) = (3 # 5)%Q /\ this (volume_fraction [5] C89_other) = 2%Q /\
  (exists e, fresh true [3] true true (CallS2 C89_image C89_other None) = Ok e /\ exact_values (result e) = [(7 # 5)%Q; (3 # 5)%Q; (9 # 5)%Q]) /\
  (exists e, fresh true [3] true true (CallS2 (complement C89_image) (complement C89_other) None) = Ok e /\
     exact_values (result e) = [(-1 # 5)%Q; (-1)%Q; (1 # 5)%Q]) /\
  (exists e, fresh true [3] true true (CallW2 C89_image C89_other None) = Ok e /\ exact_values (result e) = [(7 # 3)%Q; 1%Q; 3%Q]).
Proof.
  split; [shapes_tac|]. split; [split; reflexivity|]. split; [split; reflexivity|]. split; [reflexivity|]. split; [vm_compute; reflexivity|]. split; [vm_compute; reflexivity|].
  split; [eexists; split; [vm_compute; reflexivity|vm_compute; reflexivity]|].
  split; (eexists; split; [vm_compute; reflexivity|vm_compute; reflexivity]).
Qed.

(** ** C90 Bounds on correlations *)

(** S2(f, g)(d)^2 <= S2(f, f)(0) S2(g, g)(0). *)
Theorem C90_cauchy_schwarz :
  forall asrt var roi shape f g, shapes true roi shape -> is_image shape f -> is_image shape g ->
  exists e ef eg, fresh asrt roi true var (CallS2 f g None) = Ok e /\
    fresh asrt roi true var (CallS2 f f None) = Ok ef /\ fresh asrt roi true var (CallS2 g g None) = Ok eg /\
    forall r r0, pixel roi r -> pixel roi r0 -> zero_offset (offset roi r0) ->
      exists q qf qg, result_at e r = Exact q /\ result_at ef r0 = Exact qf /\ result_at eg r0 = Exact qg /\ (q * q <= qf * qg)%Qc.
Proof. exact S2_cauchy. Qed.
Print Assumptions C90_cauchy_schwarz.

(** |S2(f, f)(d)| <= S2(f, f)(0). *)
Theorem C90_autocorrelation_peaks_at_zero :
  forall asrt var roi shape f, shapes true roi shape -> is_image shape f ->
  exists e, fresh asrt roi true var (CallS2 f f None) = Ok e /\
    forall r r0, pixel roi r -> pixel roi r0 -> zero_offset (offset roi r0) ->
      exists q q0, result_at e r = Exact q /\ result_at e r0 = Exact q0 /\ (- q0 <= q <= q0)%Qc.
Proof. exact S2_peak. Qed.
Print Assumptions C90_autocorrelation_peaks_at_zero.

(** Of a binary image: phi - S2(d + d') <= (phi - S2(d)) + (phi - S2(d')). *)
Theorem C90_triangle_inequality :
  forall asrt var roi shape f, shapes true roi shape -> is_image shape f -> two_phase f ->
  exists e, fresh asrt roi true var (CallS2 f f None) = Ok e /\
    forall r1 r2 r3, pixel roi r1 -> pixel roi r2 -> pixel roi r3 ->
      offset roi r3 = plus_offset (offset roi r1) (offset roi r2) ->
      exists q1 q2 q3, result_at e r1 = Exact q1 /\ result_at e r2 = Exact q2 /\ result_at e r3 = Exact q3 /\
        let phi := volume_fraction shape f in (phi - q3 <= (phi - q1) + (phi - q2))%Qc.
Proof. exact S2_triangle. Qed.
Print Assumptions C90_triangle_inequality.

(** Of a binary image: S2(d) >= 2 phi - 1. *)
Theorem C90_lower_bound :
  forall asrt var roi shape f, shapes true roi shape -> is_image shape f -> two_phase f ->
  exists e, fresh asrt roi true var (CallS2 f f None) = Ok e /\
    forall r, pixel roi r -> exists q, result_at e r = Exact q /\ let phi := volume_fraction shape f in (phi + phi - 1 <= q)%Qc.
Proof. exact S2_lower. Qed.
Print Assumptions C90_lower_bound.

Example C90_case :
  shapes true [5] [5] /\ is_image [5] C89_image /\ two_phase C89_image /\ zero_offset (offset [5] 2) /\
  offset [5] 4 = plus_offset (offset [5] 3) (offset [5] 3) /\
  (exists e, fresh true [5] true true (CallS2 C89_image C89_image None) = Ok e /\
     exact_values (result e) = [(2 # 5)%Q; (1 # 5)%Q; (3 # 5)%Q; (1 # 5)%Q; (2 # 5)%Q]) /\
  (exists e, fresh true [5] true true (CallS2 C89_other C89_other None) = Ok e /\
     exact_values (result e) = [(22 # 5)%Q; (13 # 5)%Q; 6%Q; (13 # 5)%Q; (22 # 5)%Q]).
Proof.
  split; [shapes_tac|]. split; [split; reflexivity|]. split; [intros x [<-|[<-|[<-|[<-|[<-|[]]]]]]; auto|].
  split; [intros t [<-|[]]; reflexivity|]. split; [reflexivity|].
  split; (eexists; split; [vm_compute; reflexivity|vm_compute; reflexivity]).
Qed.

(** ** C91 The sum rule

    If the region of interest is as large as the image, the average of S2 over all offsets is
    the product of the averages of the images. *)
Theorem C91_sum_rule :
  forall asrt var shape f g, shapes true shape shape -> is_image shape f -> is_image shape g ->
  exists e s, fresh asrt shape true var (CallS2 f g None) = Ok e /\
    (forall r, pixel shape r -> result_at e r = Exact (s r)) /\
    (sum_over (pixels shape) s / zq (zprod shape) = volume_fraction shape f * volume_fraction shape g)%Qc.
Proof. exact S2_sum_rule. Qed.
Print Assumptions C91_sum_rule.

Example C91_case :
  shapes true [2; 3] [2; 3] /\
  exists e, fresh true [2; 3] true true (CallS2 (mkimg [2; 3] (map zq [1; 0; 2; 0; 0; 1])) (mkimg [2; 3] (map zq [5; 0; 1; 1; 1; 0])) None) = Ok e /\
    exact_values (result e) = [(1 # 3)%Q; (7 # 6)%Q; (11 # 6)%Q; (1 # 3)%Q; (1 # 3)%Q; (4 # 3)%Q] /\
    this (volume_fraction [2; 3] (mkimg [2; 3] (map zq [1; 0; 2; 0; 0; 1]))) = (2 # 3)%Q /\
    this (volume_fraction [2; 3] (mkimg [2; 3] (map zq [5; 0; 1; 1; 1; 0]))) = (4 # 3)%Q.
Proof.
  split; [shapes_tac|]. eexists. split; [vm_compute; reflexivity|]. split; [vm_compute; reflexivity|]. split; vm_compute; reflexivity.
Qed.

(** ** C92 Structure is the Fourier transform of S2 (Wiener-Khinchin)

    The structure factor of a set of samples is the Fourier transform of their ensemble-averaged
    two-point correlation, over a region of interest as large as the samples.  [s r] is the
    correlation at roi element [r]; each sample has the uninitialised memory it is computed in. *)
Theorem C92_wiener_khinchin_1d :
  forall asrt var n start l e0, 1 <= n < 2 ^ 62 -> l <> [] -> (forall s, In s l -> is_image [n] (fst s)) ->
  SpecStructure.fresh [n] start -> ensemble asrt [n] true var = Ok e0 ->
  exists e s st, run asrt (autocorrelations (map fst l)) e0 = Ok e /\ (forall r, 0 <= r < n -> result_at e r = Exact (s r)) /\
    Structure.add_samples start (SpecStructure.samples1 n (map (fun x => ((fun j => Q2R (this (qn (i_vals (fst x)) j))), snd x)) l)) = Ok (Some st) /\
    forall k, 0 <= k < n -> ~ SpecStructure.nyquist n k ->
      Structure.mean st [k] = Some (SpecStructure.sum_below n (fun r => cos (2 * PI * (IZR (r - (n - 1) / 2) * IZR k / IZR n)) * Q2R (this (s r)))%R).
Proof. exact wiener1. Qed.
Print Assumptions C92_wiener_khinchin_1d.

(** In two dimensions for the entries that are right (see C53). *)
Theorem C92_wiener_khinchin_2d_partial :
  forall asrt var n m start l e0, 1 <= n < 2 ^ 62 -> 1 <= m < 2 ^ 62 -> n mod 2 = m mod 2 -> l <> [] ->
  (forall s, In s l -> is_image [n; m] (fst s)) ->
  SpecStructure.fresh [n; m] start -> ensemble asrt [n; m] true var = Ok e0 ->
  exists e s st, run asrt (autocorrelations (map fst l)) e0 = Ok e /\ (forall r, pixel [n; m] r -> result_at e r = Exact (s r)) /\
    Structure.add_samples start (SpecStructure.samples2 n m (map (fun x => ((fun a b => Q2R (this (qn (i_vals (fst x)) (a * m + b)))), snd x)) l)) = Ok (Some st) /\
    forall i j, 0 <= i < n -> 0 <= j < m -> 2 * i < n /\ 2 * j < m \/ n < 2 * i /\ m < 2 * j ->
      Structure.mean st [i; j] = Some (SpecStructure.sum_below n (fun a => SpecStructure.sum_below m (fun b =>
        cos (2 * PI * (IZR (a - (n - 1) / 2) * IZR i / IZR n + IZR (b - (m - 1) / 2) * IZR j / IZR m)) * Q2R (this (s (a * m + b)%Z))))%R).
Proof. exact wiener2. Qed.
Print Assumptions C92_wiener_khinchin_2d_partial.

(** False for an entry of one positive and one negative frequency, that is written. *)
Theorem C92_wiener_khinchin_2d_refuted : exists f e0 e s i j, is_image [4; 4] f /\ ensemble true [4; 4] true true = Ok e0 /\
  run true (autocorrelations [f]) e0 = Ok e /\ (forall r, pixel [4; 4] r -> result_at e r = Exact (s r)) /\
  0 <= i < 4 /\ 0 <= j < 4 /\ ~ SpecStructure.nyquist 4 i /\ ~ SpecStructure.nyquist 4 j /\
  forall junk, exists st, Structure.add_sample None (Structure.Data2 4 4 (fun a b => Q2R (this (qn (i_vals f) (a * 4 + b))))) junk = Ok st /\
    Structure.mean st [i; j] <> Some (SpecStructure.sum_below 4 (fun a => SpecStructure.sum_below 4 (fun b =>
        cos (2 * PI * (IZR (a - (4 - 1) / 2) * IZR i / IZR 4 + IZR (b - (4 - 1) / 2) * IZR j / IZR 4)) * Q2R (this (s (a * 4 + b)%Z))))%R).
Proof. exact wiener2_refuted. Qed.
Print Assumptions C92_wiener_khinchin_2d_refuted.

Example C92_case :
  (forall s, In s [(C89_image, fun _ _ => 7%R); (C89_other, fun _ _ : Z => 0%R)] -> is_image [5] (fst s)) /\
  SpecStructure.fresh [5] None /\ (exists e0, ensemble true [5] true false = Ok e0) /\ ~ SpecStructure.nyquist 5 2 /\
  is_image [1; 5] (mkimg [1; 5] (i_vals C89_image)) /\ (exists e0, ensemble true [1; 5] true false = Ok e0).
Proof.
  split; [intros s [<-|[<-|[]]]; split; reflexivity|]. split; [left; reflexivity|]. split; [eexists; vm_compute; reflexivity|].
  split; [unfold SpecStructure.nyquist; lia|]. split; [split; reflexivity|eexists; vm_compute; reflexivity].
Qed.
