(** * Properties_Refused: C116

    [try_add], [try_step]: one call, giving the object afterwards and the outcome of the call;
    [session]: a sequence of calls on one object, going on after exceptions; [accepted],
    [returned]: the calls that did not throw and what they returned. *)

From Coq Require Import ZArith QArith Qcanon List Bool Lia.
From Verif Require Import Base Path Cluster Ensemble EnsemblePy BindingsPy SpecEnsemble Refused SpecRefused RefusedTop.
Import ListNotations.
Open Scope Z_scope.

(** The outcome of a call is that of the models that stop at the first exception, and an exception
    leaves the object as it was. *)
Theorem C116_ensemble_outcome_partial : forall asrt c e, mask_fits asrt c ->
  match add asrt e c with
  | Ok e' => try_add asrt c e = (e', Ok tt)
  | Throw => try_add asrt c e = (e, Throw)
  | UB => snd (try_add asrt c e) = UB
  | NoFuel => snd (try_add asrt c e) = NoFuel
  end.
Proof. exact ensemble_outcome. Qed.
Print Assumptions C116_ensemble_outcome_partial.

Theorem C116_labeller_outcome : forall asrt g o s,
  match step asrt g s o with
  | Ok (s', out) => try_step asrt g o s = (s', Ok out)
  | Throw => try_step asrt g o s = (s, Throw)
  | UB => snd (try_step asrt g o s) = UB
  | NoFuel => snd (try_step asrt g o s) = NoFuel
  end.
Proof. exact labeller_outcome. Qed.
Print Assumptions C116_labeller_outcome.

(** So a sequence of calls in which exceptions are caught is the sequence of the calls that are
    accepted. *)
Theorem C116_ensemble_partial : forall asrt cs e e' o, Forall (mask_fits asrt) cs ->
  session (try_add asrt) cs e = Some (e', o) -> run asrt (accepted cs o) e = Ok e'.
Proof. exact ensemble_session. Qed.
Print Assumptions C116_ensemble_partial.

Theorem C116_labeller : forall asrt g ops s s' o,
  session (try_step asrt g) ops s = Some (s', o) -> run_from asrt g s (accepted ops o) = Ok (s', returned o).
Proof. exact labeller_session. Qed.
Print Assumptions C116_labeller.

(** The same in Python. *)
Theorem C116_python_ensemble_partial : forall asrt cs e e' o, Forall (py_mask_fits asrt) cs ->
  session (try_py_add asrt) cs e = Some (e', o) ->
  foldM (fun e c => let '(m, args, mode) := c in py_add asrt e m args mode) (accepted cs o) e = Ok e'.
Proof. exact py_ensemble_session. Qed.
Print Assumptions C116_python_ensemble_partial.

Theorem C116_python_labeller : forall asrt g ops s s' o,
  session (try_py_step asrt g) ops s = Some (s', o) -> py_run_from asrt g s (accepted ops o) = Ok (s', returned o).
Proof. exact py_labeller_session. Qed.
Print Assumptions C116_python_labeller.

(** In any case the sums are those of the calls that are accepted. *)
Theorem C116_sums : forall asrt cs e t o, session (try_add asrt) cs e = Some (t, o) ->
  exists t', run asrt (accepted cs o) e = Ok t' /\
             data_first t = data_first t' /\ data_second t = data_second t' /\ norm t = norm t'.
Proof. exact averages_session. Qed.
Print Assumptions C116_sums.

(** Without assertions, a refused [mean] locks the ensemble: [variance] no longer throws, and the
    root is not taken any more of what [heightheight] has added. *)
Theorem C116_variance_refuted : exists f m e, ensemble false [1] false true = Ok e /\ i_shape f = [2] /\ i_shape m = [3] /\
  variance e = Throw /\ variance (fst (try_add false (MeanMasked f m) e)) <> Throw /\ snd (try_add false (MeanMasked f m) e) = Throw.
Proof. exact trace. Qed.
Print Assumptions C116_variance_refuted.

Theorem C116_result_refuted : exists f g m e0 e, ensemble false [3] false true = Ok e0 /\ add false e0 (CallHH f None) = Ok e /\
  snd (try_add false (MeanMasked g m) e) = Throw /\ nth 0 (result e) NaN = Root (zq 4) /\
  nth 0 (result (fst (try_add false (MeanMasked g m) e))) NaN = Exact (zq 4).
Proof. exact trace_result. Qed.
Print Assumptions C116_result_refuted.

(** Sessions with calls that are refused and calls that are accepted. *)
Example C116_case :
  (exists e t, ensemble true [3] false true = Ok e /\
     session (try_add true) [CallL (mkimg [2; 2] [1; 1; 1; 1]) actual; CallHH (mkimg [3] [zq 0; zq 2; zq 4]) None;
                             Mean (mkimg [1] [zq 1])] e = Some (t, [None; Some tt; None])) /\
  exists g s, make_default [2; 2] false = Ok g /\
     session (try_step true g) [AddPoints [0; 7]; AddSequence [0; 3]; AddImage [4] [1; 1; 1; 1]] (init g)
       = Some (s, [None; Some [0; 1; 2]; None]) /\ c_label s = [1; 0; 0; 2].
Proof.
  split.
  - eexists _, _. split; [reflexivity|]. vm_compute. reflexivity.
  - eexists _, _. split; [reflexivity|]. split; [vm_compute; reflexivity|reflexivity].
Qed.
