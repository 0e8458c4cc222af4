(** * EnsembleCallCase: calls of the wrappers that do not do what is meant *)

From Coq Require Import ZArith QArith Qcanon List Bool String Permutation.
From Verif Require Import Base Path Ensemble EnsemblePy BindingsCall SpecCall EnsembleCall.
Import ListNotations.
Open Scope Z_scope.

Definition three (a b c : Z) (t : dtype) : array := mkarray t [3] [zq a; zq b; zq c].
Definition one (a : Z) : array := mkarray Int64 [1] [zq a].

(** A flag taken for a mask. *)
Example flag_as_mask : forall asrt,
  py_wrapper asrt M_W2c [PShape [3]; PArray (three 0 0 1 Int32); PArray (three 0 0 1 Int32); PArray (three 0 1 1 Int32); PFlag false] [] = (if asrt then Throw else UB).
Proof. intros [|]; vm_compute; reflexivity. Qed.
Example flag_meant : forall asrt, exists v, py_single asrt [3] false M_W2c [three 0 0 1 Int32; three 0 0 1 Int32; three 0 1 1 Int32] Bresenham = Ok v.
Proof. intros [|]; eexists; vm_compute; reflexivity. Qed.

(** A mask of one pixel taken for a flag. *)
Example mask_as_flag : forall asrt,
  py_wrapper asrt M_W2 [PShape [1]; PArray (one 2); PArray (one 3); PArray (one 1)] [] = py_single asrt [1] true M_W2 [one 2; one 3] Bresenham.
Proof. intros [|]; vm_compute; reflexivity. Qed.
Example mask_meant : forall asrt,
  py_single asrt [1] true M_W2 [one 2; one 3; one 1] Bresenham <> py_single asrt [1] true M_W2 [one 2; one 3] Bresenham.
Proof. intros [|]; vm_compute; discriminate. Qed.

Lemma mask_taken : exists roi w f fmask, forall asrt,
  py_wrapper asrt M_W2 [PShape roi; PArray w; PArray f; PArray fmask] [] <> py_single asrt roi true M_W2 [w; f; fmask] Bresenham /\
  py_wrapper asrt M_W2 [PShape roi; PArray w; PArray f; PArray fmask] [] = py_single asrt roi true M_W2 [w; f] Bresenham.
Proof.
  exists [1], (one 2), (one 3), (one 1). intros asrt. split; [|apply mask_as_flag]. rewrite mask_as_flag. intros E. symmetry in E. exact (mask_meant asrt E).
Qed.

Lemma flag_taken : exists roi clusters centers f, forall asrt,
  (exists v, py_single asrt roi false M_W2c [clusters; centers; f] Bresenham = Ok v) /\
  py_wrapper asrt M_W2c [PShape roi; PArray clusters; PArray centers; PArray f; PFlag false] [] = (if asrt then Throw else UB).
Proof. exists [3], (three 0 0 1 Int32), (three 0 0 1 Int32), (three 0 1 1 Int32). intros asrt. split; [apply flag_meant|apply flag_as_mask]. Qed.

Local Open Scope string_scope.
Example case_given_with : forall c ce f, given_with (("roi", PShape [3%Z]) :: name_images M_W2c false [c; ce; f])
  (if_given "periodic" PFlag (Some false) ++ if_given "mode" PMode (Some actual)) [PShape [3%Z]; PArray c]
  [("mode", PMode actual); ("f", PArray f); ("periodic", PFlag false); ("centers", PArray ce)].
Proof.
  intros. exists 2%nat. split; [cbn; auto|]. split; [reflexivity|]. cbn.
  apply NoDup_Permutation.
  - repeat (constructor; [cbn; intuition discriminate|]). constructor.
  - repeat (constructor; [cbn; intuition discriminate|]). constructor.
  - intros x. cbn. tauto.
Qed.
