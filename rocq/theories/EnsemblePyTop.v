(** * EnsemblePyTop: C75 and C77 as stated, and their witnesses *)

From Coq Require Import ZArith QArith Qcanon List Bool Lia.
From Verif Require Import Base SpecCluster SpecDilate Path Ensemble SpecEnsemble SpecAlgebra DerivedRun EnsemblePy SpecPy DerivedPy.
Import ListNotations.
Open Scope Z_scope.

Lemma cpp_variance : forall asrt roi periodic e0 cs, Forall (fun n => 0 <= n) roi -> cpp_ensemble asrt roi periodic None = Ok e0 ->
  (forall c, In c cs -> height_call (match periodic with Some b => b | None => true end) roi c) ->
  exists e, run asrt cs e0 = Ok e /\ forall r, pixel roi r ->
    let l := flat_map (height_differences (match periodic with Some b => b | None => true end) (offset roi r)) cs in
    (1 <= lenZ l -> result_at e r = Root (average l)) /\ (2 <= lenZ l -> variance_at e r = Some (Root (sample_variance l))).
Proof.
  intros asrt roi periodic e0 cs HR HE HC. unfold cpp_ensemble in HE.
  destruct (hh_history asrt roi _ true e0 cs HR HE HC) as (e & E & V). exists e. split; auto. intros r Hr l.
  destruct (V r Hr) as (V1 & V2 & _). auto.
Qed.

Lemma py_variance : forall asrt roi periodic e0 cs, Forall (fun n => 0 <= n) roi -> py_ensemble asrt roi periodic (Some true) = Ok e0 ->
  (forall c, In c cs -> height_call (match periodic with Some b => b | None => true end) roi c) ->
  exists e, run asrt cs e0 = Ok e /\ forall r, pixel roi r ->
    let l := flat_map (height_differences (match periodic with Some b => b | None => true end) (offset roi r)) cs in
    (1 <= lenZ l -> result_at e r = Root (average l)) /\ (2 <= lenZ l -> variance_at e r = Some (Root (sample_variance l))).
Proof.
  intros asrt roi periodic e0 cs HR HE HC. unfold py_ensemble in HE.
  destruct (hh_history asrt roi _ true e0 cs HR HE HC) as (e & E & V). exists e. split; auto. intros r Hr l.
  destruct (V r Hr) as (V1 & V2 & _). auto.
Qed.

Lemma py_default_variance : forall asrt roi periodic e0 cs, Forall (fun n => 0 <= n) roi -> py_ensemble asrt roi periodic None = Ok e0 ->
  (forall c, In c cs -> height_call (match periodic with Some b => b | None => true end) roi c) ->
  exists e, run asrt cs e0 = Ok e /\ forall r, pixel roi r ->
    let l := flat_map (height_differences (match periodic with Some b => b | None => true end) (offset roi r)) cs in
    2 <= lenZ l -> (exists x, In x l /\ x <> 0%Qc) -> variance_at e r = Some NaN.
Proof.
  intros asrt roi periodic e0 cs HR HE HC. unfold py_ensemble in HE.
  destruct (hh_history asrt roi _ false e0 cs HR HE HC) as (e & E & V). exists e. split; auto. intros r Hr l.
  destruct (V r Hr) as (_ & _ & V3). auto.
Qed.

Definition py_heights : img Qc := mkimg [3] (map zq [1; 2; 4]).

Lemma py_variance_refuted : exists roi e0 cs e r,
  py_ensemble true roi None None = Ok e0 /\ (forall c, In c cs -> height_call true roi c) /\
  run true cs e0 = Ok e /\ pixel roi r /\ 2 <= lenZ (flat_map (height_differences true (offset roi r)) cs) /\
  variance_at e r <> Some (Root (sample_variance (flat_map (height_differences true (offset roi r)) cs))) /\
  variance_at e r = Some NaN.
Proof.
  exists [3]. eexists. exists [CallHH py_heights None]. eexists. exists 0.
  split; [vm_compute; reflexivity|]. split.
  { intros c [<-|[]]. cbn [height_call]. split; [|split; [split; reflexivity|exact I]].
    unfold shapes. split; [reflexivity|]. split; [cbn; lia|]. split; [repeat constructor; lia|]. split; [repeat constructor; lia|].
    intros _. vm_compute. intuition discriminate. }
  split; [vm_compute; reflexivity|]. split; [unfold pixel; cbn; lia|]. split; [vm_compute; discriminate|].
  split; [vm_compute; discriminate|vm_compute; reflexivity].
Qed.

Definition half : Qc := (zq 1 / zq 2)%Qc.
Definition py_weights (t : dtype) : array := mkarray t [2] (map zq [1; 1]).
Definition py_damage : array := mkarray Float64 [2] [half; half].

Lemma truncated_refuted :
  (exists m args mode c, asked m args mode c /\
     single true [1] true c = Ok [Exact half] /\ py_single true [1] true m args mode = Ok [Exact 0%Qc]) /\
  (exists f g mode c, asked M_S2 [f; g] mode c /\ a_dtype f = Float32 /\ a_dtype g = Float32 /\
     single true [1] true c = Ok [Exact (half * half)%Qc] /\ py_single true [1] true M_S2 [f; g] mode = Ok [Exact 0%Qc]) /\
  (exists c ce f mode k, asked M_W2c [c; ce; f] mode k /\ a_dtype c = Int64 /\ a_dtype ce = Int64 /\ a_dtype f = Float64 /\
     exists v v', single true [3] true k = Ok v /\ py_single true [3] true M_W2c [c; ce; f] mode = Ok v' /\ v <> v').
Proof.
  split; [|split].
  - exists M_W2, [py_weights Int32; py_damage], Bresenham. eexists. split; [constructor|]. split; vm_compute; f_equal; f_equal; f_equal; apply Qc_is_canon; reflexivity.
  - exists (mkarray Float32 [2] [half; half]), (mkarray Float32 [2] [half; half]), Bresenham. eexists. split; [constructor|].
    split; [reflexivity|]. split; [reflexivity|]. split; vm_compute; f_equal; f_equal; f_equal; apply Qc_is_canon; reflexivity.
  - exists (mkarray Int64 [5] (map zq [0; 0; 1; 0; 0])), (mkarray Int64 [5] (map zq [0; 0; 1; 0; 0])), (mkarray Float64 [5] (map (fun _ => half) [0; 0; 1; 0; 0])), Bresenham.
    exists (CallW2c (mkimg [5] [0; 0; 1; 0; 0]) (mkimg [5] [0; 0; 1; 0; 0]) (mkimg [5] (map (fun _ => half) [0; 0; 1; 0; 0])) None Bresenham).
    split. { apply asked_W2c; (split; [reflexivity|split; [reflexivity|repeat constructor; cbn; lia]]). }
    split; [reflexivity|]. split; [reflexivity|]. split; [reflexivity|].
    eexists. eexists. split; [vm_compute; reflexivity|]. split; [vm_compute; reflexivity|]. discriminate.
Qed.
