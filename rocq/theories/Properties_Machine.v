(** * Properties_Machine: C144

    Statements only; each is closed by a lemma proved elsewhere.  [mrun] adds realizations as
    the machine does: [double]s round and the paths that [L] and [W2c] walk are computed with
    [double]s and [int]s of 32 bits (EnsembleMachine.v). *)

From Coq Require Import ZArith QArith Qcanon Reals List Bool Lia.
From Flocq Require Import Core BinarySingleNaN.
From Verif Require Import Base Path Ensemble SpecEnsemble Double EnsembleFloat SpecDouble DoubleProofs EnsembleFloatTop IntArith EnsembleMachine SpecMachine
  EnsembleMachineProofs EnsembleFloatMask EnsembleFloatOrder EnsembleFloatMean Properties_Float.
Import ListNotations.
Open Scope Z_scope.

(** Any calls, on any images: the same outcome as with exact paths. *)
Theorem C144_exact_paths : forall L asrt roi per var cs, Forall (within_reach roi) cs ->
  (x <- fensemble asrt roi per var ;; mrun L asrt cs x) = (x <- fensemble asrt roi per var ;; frun L asrt cs x).
Proof. exact machine_same. Qed.
Print Assumptions C144_exact_paths.

(** So the statistics of images of integers are exact (C78) with the paths of the machine. *)
Theorem C144_integers_are_exact : forall L M asrt roi per var cs ds,
  library L -> 1 <= M -> Forall (fun n => 0 <= n) roi ->
  Forall2 same_call cs ds -> Forall (integral_call M) cs -> all_calls roi var M cs <= 2 ^ 53 -> Forall (within_reach roi) ds ->
  alike (fun e x => exact_data e x /\ Forall2 (rounded_value L) (result e) (fresult L x))
    (e <- ensemble asrt roi per var ;; run asrt cs e) (x <- fensemble asrt roi per var ;; mrun L asrt ds x).
Proof. exact machine_exact. Qed.
Print Assumptions C144_integers_are_exact.

Definition C144_f : img Z := mkimg [3; 4] [1; 1; 0; 1;  0; 1; 1; 1;  1; 0; 1; 0].

Example C144_case :
  library plain /\ Forall2 same_call [CallL C144_f actual; CallL C144_f full] [FCallL C144_f actual; FCallL C144_f full] /\
  Forall (integral_call 1) [CallL C144_f actual; CallL C144_f full] /\
  all_calls [3; 5] true 1 [CallL C144_f actual; CallL C144_f full] <= 2 ^ 53 /\
  Forall (within_reach [3; 5]) [FCallL C144_f actual; FCallL C144_f full] /\
  (x <- (x0 <- fensemble true [3; 5] true true ;; mrun plain true [FCallL C144_f actual; FCallL C144_f full] x0) ;;
   Ok (map (fun v => B2SF v) (fdata_first x), map (fun v => B2SF v) (fnorm x))) =
   Ok (map (fun z => B2SF (dz z)) [2; 12; 16; 12; 2;  4; 24; 192; 24; 4;  2; 12; 16; 12; 2],
       map (fun z => B2SF (dz z)) [24; 48; 48; 48; 24;  24; 72; 288; 72; 24;  24; 48; 48; 48; 24]).
Proof.
  split; [apply plain_library|]. split; [do 2 (constructor; [split; reflexivity|]); constructor|].
  split; [do 2 (constructor; [split; [repeat constructor; lia|reflexivity]|]); constructor|].
  split; [vm_compute; discriminate|]. split; [|vm_compute; reflexivity].
  do 2 (apply Forall_cons; [cbn [within_reach reach]; do 2 (apply Forall_cons; [lia|]); constructor|]). constructor.
Qed.
