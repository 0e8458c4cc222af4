(** * SafePy: calls of an ensemble in Python (C132, proofs only) *)

From Coq Require Import ZArith QArith Qcanon List Bool Lia.
From Verif Require Import Base BaseLemmas Path SpecDilate Ensemble EnsemblePy SpecEnsemble EnsembleSums EnsembleLin EnsembleWindow EnsembleRun Refused SpecRefused RefusedTop DerivedPy SpecSafe SafeTop.
Import ListNotations.
Open Scope Z_scope.

Lemma trunc_range : forall v, (zq (- 2 ^ 31) <= v)%Qc -> (v < zq (2 ^ 31))%Qc -> int_range (trunc v) = true.
Proof.
  intros v H1 H2. unfold int_range, trunc. unfold Qcle, Qclt, Qle, Qlt in *. rewrite this_zq in H1, H2. cbn [Qnum Qden] in *.
  set (n := Qnum (this v)) in *. set (d := Zpos (Qden (this v))) in *. assert (0 < d) by (unfold d; lia). clearbody n d.
  pose proof (Z.quot_rem' n d) as Q. pose proof (Z.rem_bound_abs n d ltac:(lia)) as B. apply andb_true_iff. rewrite Z.leb_le, Z.ltb_lt.
  assert (S : 0 <= n \/ n < 0) by lia. destruct S as [S|S].
  - pose proof (Z.rem_nonneg n d ltac:(lia) S). pose proof (Z.quot_pos n d S ltac:(lia)). nia.
  - pose proof (Z.rem_nonpos n d ltac:(lia) ltac:(lia)). assert (Z.quot n d <= 0) by nia. nia.
Qed.

Definition good_load (p : param) (a : array) (x : arg) : Prop :=
  match p, x with
  | PInt, AInt i => whole i /\ i_shape i = a_shape a
  | PDouble, ADouble i => whole i /\ i_shape i = a_shape a
  | _, _ => False
  end.

Lemma load_good : forall p a, whole_array a -> exists x, load p a = Ok x /\ good_load p a x.
Proof.
  intros p a (H1 & H2 & H3). destruct p; cbn [load].
  - replace (forallb (fun q => int_range (trunc q)) (a_vals a)) with true.
    + eexists. split; [reflexivity|]. split; [|reflexivity]. split; cbn; auto. unfold lenZ in *. rewrite map_length. exact H1.
    + symmetry. apply forallb_forall. intros v IN. destruct (H3 v IN). apply trunc_range; auto.
  - eexists. split; [reflexivity|]. split; [|reflexivity]. split; cbn; auto.
Qed.

Fixpoint good_all (ps : list param) (args : list array) (l : list arg) : Prop :=
  match ps, args, l with
  | [], [], [] => True
  | p :: ps', a :: args', x :: l' => good_load p a x /\ good_all ps' args' l'
  | _, _, _ => False
  end.

Lemma load_all_good : forall ps args, length ps = length args -> Forall whole_array args -> exists l, load_all ps args = Ok l /\ good_all ps args l.
Proof.
  induction ps as [|p ps IH]; intros [|a args] HL HW; try discriminate.
  - exists []. split; cbn; auto.
  - apply Forall_cons_iff in HW. destruct HW as [W1 W2]. destruct (load_good p a W1) as (x & E & G). destruct (IH args) as (l & EL & GL); auto.
    exists (x :: l). cbn [load_all]. rewrite E, bind_Ok, EL, bind_Ok. split; auto. split; auto.
Qed.

Lemma applies_length : forall b ps args, applies b ps args = true -> length ps = length args.
Proof.
  intros b. induction ps as [|p ps IH]; intros [|a args] H; cbn [applies] in H; try discriminate; auto. apply andb_true_iff in H. cbn [length]. f_equal. apply IH. apply H.
Qed.

Lemma dispatch_cases : forall os args, dispatch os args = Throw \/ exists o, In o os /\ length (o_params o) = length args /\ dispatch os args = enter o args.
Proof.
  intros os args. unfold dispatch. destruct (find (fun o => applies false (o_params o) args) os) as [o|] eqn:E1.
  - apply find_some in E1. destruct E1 as [I A]. right. exists o. split; auto. split; auto. eapply applies_length; eauto.
  - destruct (find (fun o => applies true (o_params o) args) os) as [o|] eqn:E2; [|auto].
    apply find_some in E2. destruct E2 as [I A]. right. exists o. split; auto. split; auto. eapply applies_length; eauto.
Qed.

Lemma widen_whole : forall i, whole i -> whole (widen i).
Proof. intros i [A B]. split; cbn; auto. unfold lenZ in *. rewrite map_length. exact A. Qed.

Definition calls_well (per : bool) (roi : list Z) (args : list array) (c : call) : Prop :=
  whole_call c /\ usable per roi c /\ (forall s, In s (image_shape c :: other_shapes c) -> exists a, In a args /\ s = a_shape a).


Lemma inv0 : forall args l, good_all [] args l -> args = [] /\ l = [].
Proof. intros [] []; cbn; tauto. Qed.
Lemma inv1 : forall p ps args l, good_all (p :: ps) args l -> exists a args' x l', args = a :: args' /\ l = x :: l' /\ good_load p a x /\ good_all ps args' l'.
Proof. intros p ps [|a args] [|x l] H; try (destruct H; fail). destruct H. do 4 eexists. eauto. Qed.
Lemma invI : forall a x, good_load PInt a x -> exists i, x = AInt i /\ whole i /\ i_shape i = a_shape a.
Proof. intros a [i|i] H; [|destruct H]. exists i. destruct H. auto. Qed.
Lemma invD : forall a x, good_load PDouble a x -> exists i, x = ADouble i /\ whole i /\ i_shape i = a_shape a.
Proof. intros a [i|i] H; [destruct H|]. exists i. destruct H. auto. Qed.

Ltac unload :=
  repeat match goal with
  | G : good_all [] _ _ |- _ => apply inv0 in G; destruct G as [-> ->]
  | G : good_all (_ :: _) _ _ |- _ => apply inv1 in G; destruct G as (? & ? & ? & ? & -> & -> & ? & G)
  | G : good_load PInt _ _ |- _ => apply invI in G; destruct G as (? & -> & ? & ?)
  | G : good_load PDouble _ _ |- _ => apply invD in G; destruct G as (? & -> & ? & ?)
  end.

Lemma call_well : forall per roi m args mode, Forall whole_array args -> py_usable per roi (m, args, mode) ->
  py_call m args mode = Throw \/ exists c, py_call m args mode = Ok c /\ calls_well per roi args c /\ (stat_of c = S_mean <-> m = M_mean).
Proof.
  intros per roi m args mode HW (HU1 & HU2 & HU3). unfold py_call. destruct (dispatch_cases (overloads m mode) args) as [E|(o & IN & HL & E)]; [auto|]. right. rewrite E. clear E.
  destruct (load_all_good (o_params o) args HL HW) as (l & EL & GL). unfold enter. rewrite EL, bind_Ok. clear EL HL HW.
  destruct m; cbn [overloads In] in IN;
    repeat match goal with H : _ \/ _ |- _ => destruct H as [<-|H] | H : False |- _ => destruct H end;
    cbn [o_params o_call] in *; unload; (eexists; split; [reflexivity|]); cbn [stat_of].
  all: split; [|split; intros X; try reflexivity; try discriminate X].
  all: unfold calls_well, whole_call, usable, other_shapes; cbn [masks map app stat_of image_shape].
  all: split; [split; [repeat apply Forall_cons; try apply Forall_nil; assumption|]; try (apply widen_whole; assumption); try assumption|split].
  all: match goal with
       | |- forall s, _ => idtac
       | |- whole _ /\ _ => idtac
       | |- (_ -> _) /\ _ => split; [intros NM EP; first [destruct (NM eq_refl); fail | cbn [widen i_shape];
           match goal with H : i_shape ?x = _ |- half_fits (i_shape ?x) _ => rewrite H end; apply HU1; [discriminate|exact EP|cbn [In]; tauto]]|]
       end.
  all: try exact I; try (apply HU2; tauto); try (split; [apply HU2; tauto|apply HU3; reflexivity]).
  all: try (repeat match goal with |- _ /\ _ => match goal with |- whole _ /\ _ => split end end; try (apply widen_whole; assumption); assumption).
  all: cbn [widen i_shape]; intros s IN; cbn [In] in IN;
       repeat match goal with H : _ \/ _ |- _ => destruct H as [<-|H] | H : False |- _ => destruct H end;
       match goal with H : i_shape ?x = a_shape ?a |- exists b, _ /\ i_shape ?x = _ => exists a; split; [cbn [In]; tauto|exact H] end.
Qed.

Lemma py_step : forall asrt m args mode e, try_py_add asrt (m, args, mode) e =
  match py_call m args mode with Ok c => try_add asrt c e | Throw => (e, Throw) | UB => (e, UB) | NoFuel => (e, NoFuel) end.
Proof. intros. cbn [try_py_add]. unfold then_, expr. destruct (py_call m args mode); reflexivity. Qed.

Lemma run_snoc : forall asrt done e0 e c e', run asrt done e0 = Ok e -> add asrt e c = Ok e' -> run asrt (done ++ [c]) e0 = Ok e'.
Proof.
  intros asrt dn e0 e c e' HD E. unfold run in *. revert e0 HD. induction dn as [|x dn IHd]; intros e1 HD.
  - cbn in *. inversion HD; subst. rewrite E. reflexivity.
  - cbn [app foldM] in *. destruct (add asrt e1 x) as [e2| | |]; try discriminate. cbn [bind] in *. apply IHd. exact HD.
Qed.

Lemma py_session_safe : forall roi per var e0 cs, region roi -> ensemble true roi per var = Ok e0 ->
  Forall (fun c => Forall whole_array (snd (fst c))) cs -> Forall (py_usable per roi) cs -> exists e o, session (try_py_add true) cs e0 = Some (e, o).
Proof.
  intros roi per var e0 cs HR HE HW HU.
  assert (G : forall cs done e, run true done e0 = Ok e -> Forall (fun c => Forall whole_array (snd (fst c))) cs -> Forall (py_usable per roi) cs ->
    exists e' o, session (try_py_add true) cs e = Some (e', o)).
  { clear HW HU cs. induction cs as [|[[m args] mode] cs IH]; intros dn e HD HW HU; [cbn; eauto|]. apply Forall_cons_iff in HW, HU. destruct HW as [W1 W2]. destruct HU as [U1 U2].
    cbn [fst snd] in W1. cbn [session]. rewrite py_step. destruct (call_well per roi m args mode W1 U1) as [E|(c & E & (C1 & C2 & _) & _)]; rewrite E.
    - destruct (IH dn e) as (t & o & ES); auto. rewrite ES. eauto.
    - pose proof (ensemble_outcome true c e) as HO. assert (MF : mask_fits true c) by (destruct c; cbn; auto). specialize (HO MF).
      destruct (accepted_or_refused roi per var e0 dn e c HR HE HD C1 C2) as [(_ & _ & e' & EA)|(_ & EA)]; rewrite EA in HO; rewrite HO.
      + destruct (IH (dn ++ [c]) e') as (t & o & ES); auto; [|rewrite ES; eauto]. eapply run_snoc; eauto.
      + destruct (IH dn e) as (t & o & ES); auto. rewrite ES. eauto. }
  apply (G cs [] e0); auto.
Qed.

Lemma py_unchecked_safe : forall roi per var e0 cs, region roi -> ensemble false roi per var = Ok e0 ->
  Forall (fun c => Forall whole_array (snd (fst c))) cs -> Forall (py_usable per roi) cs -> Forall (py_same_shapes roi) cs ->
  exists e o, session (try_py_add false) cs e0 = Some (e, o).
Proof.
  intros roi per var e0 cs HR HE HW HU HS. pose proof (region_nonneg _ HR) as HN. destruct (ensemble_inv _ _ _ _ _ HE) as (k0 & k1 & k2 & HK & _).
  pose proof (proj1 (ok0 false per var roi k0 k1 k2 HN HK e0 HE)) as O. clear HE. revert e0 O.
  induction cs as [|[[m args] mode] cs IH]; intros e O; [cbn; eauto|]. apply Forall_cons_iff in HW, HU, HS. destruct HW as [W1 W2], HU as [U1 U2], HS as [S1 S2].
  specialize (IH W2 U2 S2). cbn [fst snd] in W1. cbn [session]. rewrite py_step. destruct (call_well per roi m args mode W1 U1) as [E|(c & E & (C1 & C2 & C3) & C4)]; rewrite E.
  - destruct (IH e O) as (t & o & ES). rewrite ES. eauto.
  - assert (SS : same_shapes c).
    { intros s IN. destruct (C3 s (or_intror IN)) as (a & A1 & ->). destruct (C3 (image_shape c) (or_introl eq_refl)) as (b & B1 & ->). apply (S1 a A1). exact B1. }
    assert (SR : same_rank roi c).
    { destruct (C3 (image_shape c) (or_introl eq_refl)) as (b & B1 & EB). unfold same_rank. rewrite EB.
      assert (D : m = M_mean \/ m <> M_mean) by (destruct m; (left; reflexivity) || (right; discriminate)). destruct D as [D|D]; [left; tauto|right]. apply (S1 b B1). exact D. }
    destruct (call_fine false per var roi k0 k1 k2 HR HK c e) as [e' EA]; auto; try discriminate.
    pose proof (ensemble_outcome false c e) as HO. assert (MF : mask_fits false c) by (destruct c; cbn; auto; right; apply SS; left; reflexivity). specialize (HO MF). rewrite EA in HO. rewrite HO.
    destruct (IH e') as (t & o & ES); [apply (ok_after false per var roi k0 k1 k2 HR HK e c e' O EA)|]. rewrite ES. eauto.
Qed.
