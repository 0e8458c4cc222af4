(** * C132: which calls of an ensemble are accepted, and that none leaves its images *)

From Coq Require Import ZArith Qcanon List Lia.
From Verif Require Import Base Path Ensemble EnsemblePy SpecEnsemble Refused SpecRefused SpecSafe SafeTop SafePy.
Import ListNotations.
Open Scope Z_scope.

(** With assertions: whatever the shapes and the values of the masks, a call is carried out if it is
    proper and of the measure of the ensemble, and throws otherwise. *)
Theorem C132_accepted_or_refused : forall roi per var e0 cs e c, region roi ->
  ensemble true roi per var = Ok e0 -> run true cs e0 = Ok e -> whole_call c -> usable per roi c ->
  (proper roi c /\ one_measure (c :: cs) /\ exists e', add true e c = Ok e') \/
  (~ (proper roi c /\ one_measure (c :: cs)) /\ add true e c = Throw).
Proof. exact accepted_or_refused. Qed.
Print Assumptions C132_accepted_or_refused.

(** Hence no sequence of calls, refused ones included, has undefined behaviour. *)
Theorem C132_any_calls : forall roi per var e0 cs, region roi -> ensemble true roi per var = Ok e0 ->
  Forall whole_call cs -> Forall (usable per roi) cs ->
  exists e outcomes, session (try_add true) cs e0 = Some (e, outcomes).
Proof. exact session_safe. Qed.
Print Assumptions C132_any_calls.

(** Without assertions: the same for images of one shape; masks may hold any
    value and measures may be mixed. *)
Theorem C132_unchecked_partial : forall roi per var e0 cs, region roi -> ensemble false roi per var = Ok e0 ->
  Forall whole_call cs -> Forall (usable per roi) cs -> Forall same_shapes cs -> Forall (same_rank roi) cs ->
  exists e, run false cs e0 = Ok e.
Proof. exact unchecked_safe. Qed.
Print Assumptions C132_unchecked_partial.

(** ... but a mask or clusters smaller than the image are read outside their end. *)
Theorem C132_unchecked_refuted : exists f g m clusters centers,
  whole_call (CallS2 f g (Some (m, m))) /\ whole_call (CallW2c clusters centers f None Bresenham) /\
  same_rank [3] (CallS2 f g (Some (m, m))) /\ zero_one (CallS2 f g (Some (m, m))) /\
  fresh false [3] false true (CallS2 f g (Some (m, m))) = UB /\
  fresh true [3] false true (CallS2 f g (Some (m, m))) = Throw /\
  fresh false [3] false true (CallW2c clusters centers f None Bresenham) = UB /\
  fresh true [3] false true (CallW2c clusters centers f None Bresenham) = Throw.
Proof. exact small_mask_unchecked. Qed.
Print Assumptions C132_unchecked_refuted.

(** In Python: whatever the arrays that are passed, and the number of them. *)
Theorem C132_python_any_calls : forall roi per var e0 cs, region roi -> ensemble true roi per var = Ok e0 ->
  Forall (fun c => Forall whole_array (snd (fst c))) cs -> Forall (py_usable per roi) cs ->
  exists e outcomes, session (try_py_add true) cs e0 = Some (e, outcomes).
Proof. exact py_session_safe. Qed.
Print Assumptions C132_python_any_calls.

Theorem C132_python_unchecked_partial : forall roi per var e0 cs, region roi -> ensemble false roi per var = Ok e0 ->
  Forall (fun c => Forall whole_array (snd (fst c))) cs -> Forall (py_usable per roi) cs -> Forall (py_same_shapes roi) cs ->
  exists e outcomes, session (try_py_add false) cs e0 = Some (e, outcomes).
Proof. exact py_unchecked_safe. Qed.
Print Assumptions C132_python_unchecked_partial.

Example C132_case :
  let f := mkimg [2; 3] [1%Qc; 0%Qc; 1%Qc; 1%Qc; 0%Qc; 0%Qc] in
  let m := mkimg [2; 3] [0; 1; 0; 0; 0; 0] in
  let calls := [CallS2 f f None; CallS2 f (mkimg [3] [1%Qc; 0%Qc; 1%Qc]) None; CallHH f None;
                CallS2 f f (Some (m, mkimg [2; 3] [0; 2; 0; 0; 0; 0])); CallS2 f f (Some (m, m))] in
  region [1; 3] /\ Forall whole_call calls /\ Forall (usable true [1; 3]) calls /\
  exists e, (e0 <- ensemble true [1; 3] true true ;;
    match session (try_add true) calls e0 with Some r => Ok r | None => UB end) =
    Ok (e, [Some tt; None; None; None; Some tt]).
Proof.
  cbv zeta. split; [split; [cbn; auto|repeat constructor; cbn; lia]|]. split; [repeat constructor; cbn; lia|]. split.
  - repeat constructor; cbn; intros; try (split; [|split]); auto; lia.
  - eexists. vm_compute. reflexivity.
Qed.

Example C132_python_case :
  let f := mkarray Float64 [2; 3] [zq 1; zq 0; zq 1; zq 1; zq 0; zq (-2)] in
  let g := mkarray Int64 [2; 3] [zq 1; zq 0; zq 1; zq 1; zq 0; zq 1] in
  let calls := [(M_S2, [f; g], Bresenham); (M_L, [f], Bresenham); (M_S2, [f], Bresenham); (M_heightheight, [f; g], Bresenham)] in
  region [1; 3] /\ Forall (fun c => Forall whole_array (snd (fst c))) calls /\ Forall (py_usable true [1; 3]) calls /\
  Forall (py_same_shapes [1; 3]) calls /\
  (exists e, (e0 <- ensemble true [1; 3] true true ;;
    match session (try_py_add true) calls e0 with Some r => Ok r | None => UB end) = Ok (e, [Some tt; None; None; None])) /\
  (exists e, (e0 <- ensemble false [1; 3] true true ;;
    match session (try_py_add false) calls e0 with Some r => Ok r | None => UB end) = Ok (e, [Some tt; Some tt; None; Some tt])).
Proof.
  cbv zeta. split; [split; [cbn; auto|repeat constructor; cbn; lia]|]. split; [|split; [|split]].
  - assert (W : forall a, a = mkarray Float64 [2; 3] [zq 1; zq 0; zq 1; zq 1; zq 0; zq (-2)] \/ a = mkarray Int64 [2; 3] [zq 1; zq 0; zq 1; zq 1; zq 0; zq 1] -> whole_array a).
    { intros a [->| ->]; (split; [reflexivity|split; [repeat constructor; cbn; lia|]]); cbn [a_vals In]; intros v IN;
        repeat match goal with H : _ \/ _ |- _ => destruct H as [<-|H] | H : False |- _ => destruct H end; split; vm_compute; congruence. }
    repeat (apply Forall_cons; [cbn [snd fst]; repeat (apply Forall_cons; [apply W; auto|]); apply Forall_nil|]). apply Forall_nil.
  - repeat apply Forall_cons; try apply Forall_nil; cbn [py_usable]; (split; [|split]); try (intros [X|X]; discriminate X); try discriminate.
    all: try (intros _ _ a IN; cbn [In] in IN; repeat match goal with H : _ \/ _ |- _ => destruct H as [<-|H] | H : False |- _ => destruct H end; cbn; lia).
    intros _. repeat constructor; lia.
  - repeat apply Forall_cons; try apply Forall_nil; cbn [py_same_shapes In]; intros a IN;
      repeat match goal with H : _ \/ _ |- _ => destruct H as [<-|H] | H : False |- _ => destruct H end; (split; [|reflexivity]); intros b IN;
      repeat match goal with H : _ \/ _ |- _ => destruct H as [<-|H] | H : False |- _ => destruct H end; reflexivity.
  - split; eexists; vm_compute; reflexivity.
Qed.
