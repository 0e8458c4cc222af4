(** * Properties_StructureExn: C112

    [offer]: one call of [add_sample], giving the object afterwards and if an exception was
    raised; [offers]: a sequence of calls, going on after exceptions; [usable]: no empty axis, all
    axes even or all odd. *)

From Coq Require Import ZArith List Bool Reals Lia.
From Verif Require Import Base Structure SpecStructure StructureTop StructureExn SpecStructureExn StructureExnTop.
Import ListNotations.
Open Scope Z_scope.

(** The outcome of a call is that of the model that stops at the first exception. *)
Theorem C112_outcome : forall st d junk,
  match add_sample st d junk with
  | Ok s => offer st d junk = (Some s, false)
  | _ => snd (offer st d junk) = true
  end.
Proof. exact outcome. Qed.
Print Assumptions C112_outcome.

(** A refused sample leaves the object as it was, if it has a shape already; if it has none, then
    if the sample is empty. *)
Theorem C112_refused_leaves_no_trace_partial : forall st d junk, snd (offer st d junk) = true ->
  st <> None \/ usable (shape_of d) \/ ~ Forall (fun n => 1 <= n) (shape_of d) -> fst (offer st d junk) = st.
Proof. exact no_trace. Qed.
Print Assumptions C112_refused_leaves_no_trace_partial.

(** So what counts is the samples of the right shape: that given to the constructor, or else that
    of the first sample. *)
Theorem C112_shape_given : forall shape s l, usable shape -> allocate shape = Ok s ->
  add_samples (Some s) (filter (of_shape shape) l) = Ok (offers (Some s) l).
Proof. exact history_given. Qed.
Print Assumptions C112_shape_given.

Theorem C112_shape_of_first_sample_partial : forall x l, usable (shape_of (fst x)) ->
  add_samples None (filter (of_shape (shape_of (fst x))) (x :: l)) = Ok (offers None (x :: l)).
Proof. exact history_first. Qed.
Print Assumptions C112_shape_of_first_sample_partial.

(** A sample can be refused because of one that was refused before. *)
Theorem C112_refused_leaves_no_trace_refuted : exists d d' junk, snd (offer None d junk) = true /\ snd (offer None d' junk) = false /\
  snd (offer (fst (offer None d junk)) d' junk) = true.
Proof. exact trace_refuted. Qed.
Print Assumptions C112_refused_leaves_no_trace_refuted.

(** If the first sample is refused as its axes are even and odd, then it is accepted when offered
    again, and whatever is done no usable sample is accepted any more. *)
Theorem C112_spoiled_by_first_sample : forall d junk, Forall (fun n => 1 <= n) (shape_of d) -> ~ usable (shape_of d) ->
  snd (offer None d junk) = true /\
  (forall junk', snd (offer (fst (offer None d junk)) d junk') = false) /\
  forall l d' junk', usable (shape_of d') -> snd (offer (offers (fst (offer None d junk)) l) d' junk') = true.
Proof. exact spoiled. Qed.
Print Assumptions C112_spoiled_by_first_sample.

(** It then has that shape, and counts the samples of that shape which are offered from then on. *)
Theorem C112_spoiled_object : forall d junk, Forall (fun n => 1 <= n) (shape_of d) -> ~ usable (shape_of d) ->
  exists s, fst (offer None d junk) = Some s /\ st_shape s = shape_of d /\ st_norm s = 0 /\ (forall i, st_first s i = Some 0%R) /\
    forall l, exists s', offers (Some s) l = Some s' /\ st_shape s' = shape_of d /\ st_norm s' = lenZ (filter (of_shape (shape_of d)) l).
Proof. exact spoiled_object. Qed.
Print Assumptions C112_spoiled_object.

Example C112_case : ~ usable [3; 4] /\ usable [3; 3] /\ Forall (fun n => 1 <= n) (shape_of (Data2 3 4 (delta 0 0))) /\
  exists s, allocate [3; 3] = Ok s.
Proof. split; [exact unusable_34|]. split; [exact usable_33|]. split; [cbn; repeat constructor; lia|]. eexists. reflexivity. Qed.
