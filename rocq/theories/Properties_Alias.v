(** * C135: labels that were read from a labeller in Python stay as they were, and changing
    them has no effect on the labeller.  False: what is read is the array of the labeller. *)

From Coq Require Import ZArith List Bool.
From Verif Require Import Base Cluster Alias SpecAlias AliasTop.
Import ListNotations.
Open Scope Z_scope.

(** A program reads labels; the next call changes what it has read. *)
Theorem C135_later_refuted : exists g prog o p q v l l', make_default [4] false = Ok g /\
  pyrun true g prog = Ok p /\ variable p v = Some l /\
  pyrun true g (prog ++ [PCall o]) = Ok q /\ variable q v = Some l' /\ l <> l'.
Proof. exact later_wrong. Qed.
Print Assumptions C135_later_refuted.

(** A program writes to labels it has read: a pixel that was added is no longer labelled. *)
Theorem C135_write_refuted : exists g prog p l s outs, make_default [4] false = Ok g /\
  calls prog = [AddPoints [0]; AddPoints [1]] /\
  pyrun true g prog = Ok p /\ now p l /\ zn l 0 = 0 /\
  run true g (calls prog) = Ok (s, outs) /\ zn (c_label s) 0 <> 0.
Proof. exact write_wrong. Qed.
Print Assumptions C135_write_refuted.

(** The same, and the next call reads outside the memory of the labeller, also with
    assertions. *)
Theorem C135_outside_refuted : exists g prog s outs, make_default [4] false = Ok g /\
  pyrun true g prog = UB /\ run true g (calls prog) = Ok (s, outs).
Proof. exact write_outside. Qed.
Print Assumptions C135_outside_refuted.

(** What is true of every program: labels that were read are the current labels, always. *)
Theorem C135_read_is_current : forall asrt g prog p v, pyrun asrt g prog = Ok p ->
  nth_error (bound prog) v = Some false -> exists l, variable p v = Some l /\ now p l.
Proof. exact read_is_live. Qed.
Print Assumptions C135_read_is_current.

(** A copy keeps the labels of the moment, until the program writes to it. *)
Theorem C135_copy : forall asrt g before after p q l,
  pyrun asrt g before = Ok p -> now p l ->
  (forall i x, ~ In (PWrite (length (bound before)) i x) after) ->
  pyrun asrt g (before ++ PCopy :: after) = Ok q ->
  variable q (length (bound before)) = Some l.
Proof. exact copy_kept. Qed.
Print Assumptions C135_copy.

(** A program that writes to copies only: the labeller is the one of its calls alone, to which
    the other claims apply; and it fails outside its memory only if these calls do. *)
Theorem C135_careful_partial : forall asrt g prog, careful prog ->
  match pyrun asrt g prog with
  | Ok p => exists s outs, run asrt g (calls prog) = Ok (s, outs) /\ labeller p = Ok s
  | Throw => True
  | UB => run asrt g (calls prog) = UB
  | NoFuel => run asrt g (calls prog) = NoFuel
  end.
Proof. exact careful_labeller. Qed.
Print Assumptions C135_careful_partial.

(** A careful program: reads, copies, writes to the copy, and goes on adding points. *)
Example C135_case : careful example_program /\ bound example_program = [false; true] /\
  exists p, pyrun true row_of_four example_program = Ok p /\
    variable p 0 = Some [1; 1; 1; 0] /\ variable p 1 = Some [1; 0; 0; 7].
Proof.
  split; [exact example_careful|]. split; [reflexivity|].
  eexists. split; [vm_compute; reflexivity|]. split; vm_compute; reflexivity.
Qed.
