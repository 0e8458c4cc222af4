(** * EnsembleRun: proofs of C43, C44, C45: sequences of calls *)

From Coq Require Import ZArith QArith Qcanon List Bool Lia Permutation.
From Verif Require Import Base BaseLemmas Array3 Array3Lemmas Path SpecCluster SpecDilate SpecPath Ensemble SpecEnsemble
  EnsembleSums EnsembleLin EnsembleWindow EnsembleTop EnsembleAdd.
Import ListNotations.
Open Scope Z_scope.

(** ** The lock *)

Lemma add_locked : forall e c, unlocked e (stat_of c) = false -> add true e c = Throw.
Proof.
  intros e c H. destruct c as [f|f m|f g m|f g m|w f m|cl ce f m mode|f m|f mode]; cbn [stat_of] in H; cbn [add];
    [unfold mean|unfold mean_masked|unfold S2|unfold C2|unfold W2|unfold W2c|unfold heightheight|unfold L]; rewrite H; unfold assertb;
    repeat (match goal with |- bind (if ?b then _ else _) _ = _ => destruct b end; rewrite ?bind_Ok; try reflexivity); try reflexivity.
Qed.

Lemma add_unlocked : forall asrt e c e', add asrt e c = Ok e' -> asrt = true -> unlocked e (stat_of c) = true.
Proof. intros asrt e c e' H ->. destruct (unlocked e (stat_of c)) eqn:E; auto. rewrite (add_locked e c E) in H. discriminate. Qed.

Lemma stat_eqb_refl : forall s, stat_eqb s s = true.
Proof. intros []; reflexivity. Qed.
Lemma stat_eqb_iff : forall a b, stat_eqb a b = true <-> a = b.
Proof. intros [] []; split; intros H; try reflexivity; discriminate. Qed.

Lemma stat_set : forall c, stat_of c <> Unset.
Proof. intros []; discriminate. Qed.

(** ** Construction *)

Lemma ensemble_inv : forall asrt roi per var e, ensemble asrt roi per var = Ok e ->
  exists k0 k1 k2, shape3 roi = Ok (k0, k1, k2) /\ (length roi <= 3)%nat.
Proof.
  intros asrt roi per var e H. unfold ensemble in H. destruct (assertb asrt (Nat.leb (length roi) 3)) as [[]| | |] eqn:EA; try discriminate.
  rewrite bind_Ok in H. destruct (shape3 roi) as [[[k0 k1] k2]| | |] eqn:ES; try discriminate. exists k0, k1, k2. split; auto.
  destruct roi as [|a [|b [|c [|d l]]]]; cbn [length]; try lia. discriminate.
Qed.

Lemma shape3_nonneg : forall roi k0 k1 k2, Forall (fun n => 0 <= n) roi -> shape3 roi = Ok (k0, k1, k2) -> 0 <= k0 /\ 0 <= k1 /\ 0 <= k2.
Proof.
  intros roi k0 k1 k2 HF H. destruct roi as [|a [|b [|c [|d l]]]]; cbn in H; inversion H; subst; repeat match goal with H : Forall _ (_ :: _) |- _ => inversion H; clear H; subst end; lia.
Qed.

Lemma ensemble_init : forall asrt roi per var e k0 k1 k2, Forall (fun n => 0 <= n) roi -> shape3 roi = Ok (k0, k1, k2) ->
  ensemble asrt roi per var = Ok e -> okS Unset per var roi k0 k1 k2 e /\ forall i, ixE k0 k1 k2 i -> vecE e i = 0%Qc.
Proof.
  intros asrt roi per var e k0 k1 k2 HF Hs H. pose proof (shape3_nonneg _ _ _ _ HF Hs) as (K0 & K1 & K2). unfold ensemble in H. rewrite Hs in H.
  destruct (assertb asrt (Nat.leb (length roi) 3)) as [[]| | |] eqn:EA; try discriminate. rewrite !bind_Ok in H. inversion H; subst. split.
  - split; [|reflexivity]. split; auto; apply tab_dims; auto.
  - intros [c r] Hr. unfold ixE in Hr. cbn [snd] in Hr.
    assert (Z0 : forall r, 0 <= r < k0 * k1 * k2 -> qn (dat (tab k0 k1 k2 (fun _ _ _ : Z => 0%Qc))) r = 0%Qc).
    { intros r' Hr'. unfold qn. rewrite nth_tab; auto. }
    unfold vecE; destruct c; cbn [fst snd e_first e_second e_norm]; apply Z0; auto.
Qed.

(** ** The data of a sequence of calls *)

Lemma pixel_ix : forall roi k0 k1 k2 r, shape3 roi = Ok (k0, k1, k2) -> pixel roi r -> 0 <= r < k0 * k1 * k2.
Proof.
  intros roi k0 k1 k2 r HK H. unfold pixel in H. replace (zprod roi) with (k0 * k1 * k2) in H; auto.
  destruct roi as [|a [|b [|c [|d l]]]]; cbn in HK; inversion HK; subst; cbn [zprod fold_right]; lia.
Qed.

Section Run.
Variables (asrt per var : bool) (roi : list Z) (k0 k1 k2 : Z).
Hypothesis HR : Forall (fun n => 0 <= n) roi.
Hypothesis HK : shape3 roi = Ok (k0, k1, k2).
Variable e0 : ens.
Hypothesis HE : ensemble asrt roi per var = Ok e0.

Lemma Kp : 0 <= k0 /\ 0 <= k1 /\ 0 <= k2. Proof. apply (shape3_nonneg roi); auto. Qed.
Notation K := (k0 * k1 * k2).

Lemma ok0 : okS Unset per var roi k0 k1 k2 e0. Proof. apply (ensemble_init _ _ _ _ _ _ _ _ HR HK HE). Qed.
Lemma zero0 : forall i, ixE k0 k1 k2 i -> vecE e0 i = 0%Qc. Proof. apply (ensemble_init _ _ _ _ _ _ _ _ HR HK HE). Qed.

Lemma fresh_eq : forall c, fresh asrt roi per var c = add asrt e0 c.
Proof. intros. unfold fresh. rewrite HE, bind_Ok. reflexivity. Qed.

Lemma before0 : forall s, before asrt s per var roi k0 k1 k2 e0.
Proof. intros s. split; [apply ok0|]. intros _. unfold unlocked. rewrite (proj2 ok0). cbn [stat_eqb]. rewrite orb_true_r. reflexivity. Qed.

(** One call: the outcome is that of the call on its own. *)
Lemma add_fresh : forall e c, okE per var roi k0 k1 k2 e -> (asrt = true -> unlocked e (stat_of c) = true) ->
  match fresh asrt roi per var c with
  | Ok ec => okS (stat_of c) per var roi k0 k1 k2 ec /\
      exists e', add asrt e c = Ok e' /\ okS (stat_of c) per var roi k0 k1 k2 e' /\
      forall i, ixE k0 k1 k2 i -> vecE e' i = (vecE e i + vecE ec i)%Qc
  | Throw => add asrt e c = Throw | UB => add asrt e c = UB | NoFuel => add asrt e c = NoFuel
  end.
Proof.
  intros e c HO HU. destruct (add_any asrt per var roi k0 k1 k2 Kp c) as [o H]. pose proof (H e0 (before0 _)) as H0. pose proof (H e (conj HO HU)) as H1.
  rewrite fresh_eq. destruct o as [D| | |]; [|rewrite H0; auto..]. destruct H0 as (ec & E0 & P0 & V0). destruct H1 as (e' & E1 & P1 & V1).
  rewrite E0. split; auto. exists e'. split; auto. split; auto. intros i Hi. rewrite (V1 i Hi), (V0 i Hi), (zero0 i Hi). ring.
Qed.

Lemma run_data : forall cs e e', okE per var roi k0 k1 k2 e -> run asrt cs e = Ok e' ->
  okE per var roi k0 k1 k2 e' /\
  exists es, Forall2 (fun c ec => fresh asrt roi per var c = Ok ec) cs es /\
    forall i, ixE k0 k1 k2 i -> vecE e' i = (vecE e i + sum_over es (fun x => vecE x i))%Qc.
Proof.
  unfold run. induction cs as [|c cs IH]; intros e e' HO H; cbn [foldM] in H.
  - inversion H; subst. split; auto. exists []. split; [constructor|]. intros i _. cbn [sum_over fold_right]. ring.
  - destruct (add asrt e c) as [e1| | |] eqn:EA; try discriminate. rewrite bind_Ok in H.
    pose proof (add_fresh e c HO (add_unlocked _ _ _ _ EA)) as HA. destruct (fresh asrt roi per var c) as [ec| | |] eqn:EF; try (rewrite EA in HA; discriminate).
    destruct HA as (_ & e1' & E1 & O1 & V1). rewrite EA in E1. inversion E1; subst e1'.
    destruct (IH e1 e' (proj1 O1) H) as (O' & es & FE & V'). split; auto. exists (ec :: es). split; [constructor; auto|].
    intros i Hi. rewrite (V' i Hi), (V1 i Hi). cbn [sum_over fold_right]. unfold sum_over. ring.
Qed.

(** The statistic after a run. *)
Lemma run_stat : forall cs e e' c, okE per var roi k0 k1 k2 e -> run asrt (cs ++ [c]) e = Ok e' -> e_stat e' = stat_of c.
Proof.
  unfold run. induction cs as [|c1 cs IH]; intros e e' c HO H; cbn [app foldM] in H.
  - destruct (add asrt e c) as [e1| | |] eqn:EA; try discriminate. cbn in H. inversion H; subst.
    pose proof (add_fresh e c HO (add_unlocked _ _ _ _ EA)) as HA. destruct (fresh asrt roi per var c) as [ec| | |]; try (rewrite EA in HA; discriminate).
    destruct HA as (_ & e1' & E1 & O1 & V1). rewrite EA in E1. inversion E1; subst. apply O1.
  - destruct (add asrt e c1) as [e1| | |] eqn:EA; try discriminate. rewrite bind_Ok in H.
    pose proof (add_fresh e c1 HO (add_unlocked _ _ _ _ EA)) as HA. destruct (fresh asrt roi per var c1) as [ec| | |]; try (rewrite EA in HA; discriminate).
    destruct HA as (_ & e1' & E1 & O1 & V1). rewrite EA in E1. inversion E1; subst. apply (IH e1' e' c); auto. apply O1.
Qed.

(** Calls of one measure that work on their own work in sequence. *)
Lemma run_ok : forall s cs e, okE per var roi k0 k1 k2 e -> (e_stat e = Unset \/ e_stat e = s) -> (forall c, In c cs -> stat_of c = s) ->
  (forall c, In c cs -> exists ec, fresh asrt roi per var c = Ok ec) -> exists e', run asrt cs e = Ok e'.
Proof.
  unfold run. intros s. induction cs as [|c cs IH]; intros e HO HS HM HF; cbn [foldM]; [eauto|].
  destruct (HF c) as [ec EF]; [left; auto|]. assert (HU : unlocked e (stat_of c) = true).
  { unfold unlocked. rewrite (HM c) by (left; auto). destruct HS as [-> | ->]; [rewrite orb_true_r; auto|rewrite stat_eqb_refl; auto]. }
  pose proof (add_fresh e c HO (fun _ => HU)) as HA. rewrite EF in HA. destruct HA as (_ & e1 & E1 & O1 & V1). rewrite E1, bind_Ok. apply IH.
  - apply O1.
  - right. rewrite (proj2 O1). apply HM. left; auto.
  - intros. apply HM. right; auto.
  - intros. apply HF. right; auto.
Qed.

End Run.

(** C43, the sum *)
Lemma add_sum : forall asrt roi per var e0 cs e, Forall (fun n => 0 <= n) roi ->
  ensemble asrt roi per var = Ok e0 -> run asrt cs e0 = Ok e ->
  roi_shaped roi e /\ exists es, Forall2 (fun c ec => fresh asrt roi per var c = Ok ec) cs es /\ sum_of_data roi es e.
Proof.
  intros asrt roi per var e0 cs e HR HE H. destruct (ensemble_inv _ _ _ _ _ HE) as (k0 & k1 & k2 & HK & _).
  destruct (run_data asrt per var roi k0 k1 k2 HR HK e0 HE cs e0 e (proj1 (ok0 asrt per var roi k0 k1 k2 HR HK e0 HE)) H) as (O & es & F2 & V).
  split; [apply (ok_shaped (e_stat e) per var roi k0 k1 k2 e HK); split; auto|]. exists es. split; auto.
  intros r Hr. apply (pixel_ix roi k0 k1 k2 r HK) in Hr. pose proof (zero0 asrt per var roi k0 k1 k2 HR HK e0 HE) as Z0.
  assert (W : forall c, vecE e (c, r) = sum_over es (fun x => vecE x (c, r))).
  { intros c. rewrite (V (c, r) Hr), (Z0 (c, r) Hr). ring. }
  split; [exact (W C_first)|]. split; [exact (W C_second)|exact (W C_norm)].
Qed.

(** C43: what works alone works in a sequence of one measure *)
Lemma add_runs : forall asrt roi per var e0 cs, Forall (fun n => 0 <= n) roi ->
  ensemble asrt roi per var = Ok e0 -> one_measure cs -> (forall c, In c cs -> exists ec, fresh asrt roi per var c = Ok ec) ->
  exists e, run asrt cs e0 = Ok e.
Proof.
  intros asrt roi per var e0 cs HR HE [s HM] HF. destruct (ensemble_inv _ _ _ _ _ HE) as (k0 & k1 & k2 & HK & _).
  pose proof (ok0 asrt per var roi k0 k1 k2 HR HK e0 HE) as O. eapply run_ok with (s := s); eauto; [apply O|]. left. apply O.
Qed.

(** The lock over a history. *)
Lemma run_locked : forall cs c e e' roi per var k0 k1 k2 e0, Forall (fun n => 0 <= n) roi -> shape3 roi = Ok (k0, k1, k2) ->
  ensemble true roi per var = Ok e0 -> okE per var roi k0 k1 k2 e -> e_stat e = stat_of c -> run true cs e = Ok e' ->
  e_stat e' = stat_of c /\ forall c', In c' cs -> stat_of c' = stat_of c.
Proof.
  unfold run. induction cs as [|c1 cs IH]; intros c e e' roi per var k0 k1 k2 e0 HR HK HE HO HS H; cbn [foldM] in H.
  - inversion H; subst. split; auto. intros c' [].
  - destruct (add true e c1) as [e1| | |] eqn:EA; try discriminate. rewrite bind_Ok in H.
    pose proof (add_unlocked _ _ _ _ EA eq_refl) as HU. unfold unlocked in HU. rewrite HS in HU. apply orb_true_iff in HU.
    assert (ES : stat_of c1 = stat_of c). { destruct HU as [HU|HU]; apply stat_eqb_iff in HU; auto. exfalso. apply (stat_set c HU). }
    pose proof (add_fresh true per var roi k0 k1 k2 HR HK e0 HE e c1 HO (add_unlocked _ _ _ _ EA)) as HA.
    destruct (fresh true roi per var c1) as [ec| | |]; try (rewrite EA in HA; discriminate). destruct HA as (_ & e1' & E1 & O1 & V1). rewrite EA in E1. inversion E1; subst e1'.
    destruct (IH c e1 e' roi per var k0 k1 k2 e0 HR HK HE (proj1 O1) (eq_trans (proj2 O1) ES) H) as (S' & M'). split; auto. intros c' [<-|IN]; auto.
Qed.

(** C45 *)
Lemma lock_history : forall roi per var e0 c cs e, Forall (fun n => 0 <= n) roi -> ensemble true roi per var = Ok e0 -> run true (c :: cs) e0 = Ok e ->
  (forall c', In c' cs -> stat_of c' = stat_of c) /\
  (forall c', stat_of c' <> stat_of c -> add true e c' = Throw).
Proof.
  intros roi per var e0 c cs e HR HE H. destruct (ensemble_inv _ _ _ _ _ HE) as (k0 & k1 & k2 & HK & _).
  pose proof (ok0 true per var roi k0 k1 k2 HR HK e0 HE) as O. unfold run in H. cbn [foldM] in H.
  destruct (add true e0 c) as [e1| | |] eqn:EA; try discriminate. rewrite bind_Ok in H.
  pose proof (add_fresh true per var roi k0 k1 k2 HR HK e0 HE e0 c (proj1 O) (add_unlocked _ _ _ _ EA)) as HA.
  destruct (fresh true roi per var c) as [ec| | |]; try (rewrite EA in HA; discriminate). destruct HA as (_ & e1' & E1 & O1 & V1). rewrite EA in E1. inversion E1; subst e1'.
  destruct (run_locked cs c e1 e roi per var k0 k1 k2 e0 HR HK HE (proj1 O1) (proj2 O1) H) as (S' & M'). split; auto.
  intros c' HN. apply add_locked. unfold unlocked. rewrite S'. apply orb_false_iff. split.
  - destruct (stat_eqb (stat_of c) (stat_of c')) eqn:EE; auto. apply stat_eqb_iff in EE. congruence.
  - destruct (stat_eqb (stat_of c) Unset) eqn:EE; auto. apply stat_eqb_iff in EE. exfalso. apply (stat_set c EE).
Qed.

Lemma variance_history : forall asrt roi per var e0 cs c e, Forall (fun n => 0 <= n) roi -> ensemble asrt roi per var = Ok e0 ->
  variance e0 = Throw /\
  (run asrt (cs ++ [c]) e0 = Ok e ->
     (stat_of c <> S_mean -> stat_of c <> S_heightheight -> variance e = Throw) /\
     (stat_of c = S_mean \/ stat_of c = S_heightheight -> exists v, variance e = Ok v)).
Proof.
  intros asrt roi per var e0 cs c e HR HE. destruct (ensemble_inv _ _ _ _ _ HE) as (k0 & k1 & k2 & HK & _).
  pose proof (ok0 asrt per var roi k0 k1 k2 HR HK e0 HE) as O. split; [unfold variance; rewrite (proj2 O); reflexivity|].
  intros H. pose proof (run_stat asrt per var roi k0 k1 k2 HR HK e0 HE cs e0 e c (proj1 O) H) as S. unfold variance. rewrite S. split.
  - intros N1 N2. destruct (stat_of c); try reflexivity; congruence.
  - intros [-> | ->]; eauto.
Qed.

(** Equal data. *)
Lemma data_ext : forall per var roi k0 k1 k2 e e', okE per var roi k0 k1 k2 e -> okE per var roi k0 k1 k2 e' ->
  (forall i, ixE k0 k1 k2 i -> vecE e i = vecE e' i) -> data_first e = data_first e' /\ data_second e = data_second e' /\ norm e = norm e'.
Proof.
  intros per var roi k0 k1 k2 e e' [_ _ _ (A0 & A1 & A2 & A3) (B0 & B1 & B2 & B3) (C0 & C1 & C2 & C3)] [_ _ _ (A0' & A1' & A2' & A3') (B0' & B1' & B2' & B3') (C0' & C1' & C2' & C3')] V.
  split; [|split]; apply list_ext_qn; unfold data_first, data_second, norm in *; try congruence; intros r Hr;
    [apply (V (C_first, r))|apply (V (C_second, r))|apply (V (C_norm, r))]; unfold ixE; cbn [snd]; lia.
Qed.

Lemma result_ext : forall e e', e_stat e = e_stat e' -> data_first e = data_first e' -> norm e = norm e' -> result e = result e'.
Proof. intros e e' HS HF HN. unfold result, data_first, norm in *. rewrite HS, HF, HN. reflexivity. Qed.
Lemma variance_ext : forall e e', e_stat e = e_stat e' -> data_first e = data_first e' -> data_second e = data_second e' -> norm e = norm e' -> variance e = variance e'.
Proof. intros e e' HS HF H2 HN. unfold variance, data_first, data_second, norm in *. rewrite HS, HF, H2, HN. reflexivity. Qed.

Lemma Forall2_fun : forall (A B : Type) (F : A -> res B) l m, Forall2 (fun a b => F a = Ok b) l m -> map F l = map Ok m.
Proof. intros A B F l m H. induction H; cbn; congruence. Qed.

Lemma sum_over_fresh : forall (F : call -> res ens) cs es (T : ens -> Qc), Forall2 (fun c ec => F c = Ok ec) cs es ->
  sum_over es T = sum_over cs (fun c => match F c with Ok x => T x | _ => 0%Qc end).
Proof. intros F cs es T H. induction H as [|c ec cs es HF H2 IH]; cbn [sum_over fold_right]; auto. rewrite HF. fold (sum_over es T). rewrite IH. reflexivity. Qed.

(** C43, the order *)
Lemma add_order : forall asrt roi per var e0 cs cs' e, Forall (fun n => 0 <= n) roi ->
  ensemble asrt roi per var = Ok e0 -> one_measure cs -> Permutation cs cs' -> run asrt cs e0 = Ok e ->
  exists e', run asrt cs' e0 = Ok e' /\
    data_first e' = data_first e /\ data_second e' = data_second e /\ norm e' = norm e /\
    result e' = result e /\ variance e' = variance e.
Proof.
  intros asrt roi per var e0 cs cs' e HR HE [s HM] HP H. destruct (ensemble_inv _ _ _ _ _ HE) as (k0 & k1 & k2 & HK & _).
  pose proof (ok0 asrt per var roi k0 k1 k2 HR HK e0 HE) as O.
  destruct (run_data asrt per var roi k0 k1 k2 HR HK e0 HE cs e0 e (proj1 O) H) as (O1 & es & F1 & V1).
  assert (HM' : forall c, In c cs' -> stat_of c = s) by (intros c IN; apply HM; apply (Permutation_in c (Permutation_sym HP) IN)).
  assert (HF : forall c, In c cs' -> exists ec, fresh asrt roi per var c = Ok ec).
  { intros c IN. apply (Permutation_in c (Permutation_sym HP)) in IN. clear - IN F1. induction F1 as [|x y l l' Hxy F1 IH]; [destruct IN|]. destruct IN as [<-|IN]; eauto. }
  destruct (run_ok asrt per var roi k0 k1 k2 HR HK e0 HE s cs' e0 (proj1 O) (or_introl (proj2 O)) HM' HF) as [e' H']. exists e'. split; auto.
  destruct (run_data asrt per var roi k0 k1 k2 HR HK e0 HE cs' e0 e' (proj1 O) H') as (O2 & es' & F2 & V2).
  destruct (data_ext per var roi k0 k1 k2 e' e O2 O1) as (D1 & D2 & D3).
  { intros i Hi. rewrite (V2 i Hi), (V1 i Hi). f_equal. rewrite (sum_over_fresh _ _ _ _ F2), (sum_over_fresh _ _ _ _ F1). symmetry. apply sum_perm. exact HP. }
  assert (ES : e_stat e' = e_stat e).
  { assert (G : forall l x, (forall c, In c l -> stat_of c = s) -> run asrt l e0 = Ok x -> e_stat x = match l with [] => Unset | _ => s end).
    { intros l x Hl Hx. destruct (rev l) as [|c r] eqn:ER.
      - apply (f_equal (@rev call)) in ER. rewrite rev_involutive in ER. subst l. cbn in Hx. inversion Hx; subst. apply O.
      - apply (f_equal (@rev call)) in ER. rewrite rev_involutive in ER. cbn [rev] in ER. rewrite ER in Hx.
        rewrite (run_stat asrt per var roi k0 k1 k2 HR HK e0 HE (rev r) e0 x c (proj1 O) Hx).
        rewrite (Hl c) by (rewrite ER; apply in_or_app; right; left; auto). destruct l; auto. destruct (rev r); discriminate. }
    rewrite (G cs' e' HM' H'), (G cs e HM H). destruct cs, cs'; auto; [apply Permutation_nil in HP; discriminate|apply Permutation_sym, Permutation_nil in HP; discriminate]. }
  split; auto. split; auto. split; auto. split; [apply result_ext; auto|apply variance_ext; auto].
Qed.

(** ** C44 *)

Lemma qsum_over : forall l, qsum l = sum_over l (fun x => x).
Proof. reflexivity. Qed.

Lemma qsum_map : forall (A : Type) (F : A -> Qc) l, qsum (map F l) = sum_over l F.
Proof. intros A F l. induction l as [|x l IH]; cbn; auto. fold (qsum (map F l)). rewrite IH. reflexivity. Qed.

(** One call. *)
Lemma mean_one : forall asrt roi per var c, Forall (fun n => n = 1) roi -> (length roi <= 3)%nat -> mean_call c ->
  exists e, fresh asrt roi per var c = Ok e /\ first_at e 0 = sum_over (mean_values c) (fun x => x) /\
    second_at e 0 = sum_over (mean_values c) (fun x => x * x)%Qc /\ norm_at e 0 = zq (lenZ (mean_values c)).
Proof.
  intros asrt roi per var c H1 HL HC.
  assert (HK : shape3 roi = Ok (1, 1, 1)).
  { destruct roi as [|a [|b [|d [|? ?]]]]; cbn [length] in HL; try lia; repeat match goal with H : Forall _ (_ :: _) |- _ => inversion H; clear H; subst end; reflexivity. }
  destruct (ensemble_ok asrt roi per var 1 1 1 HL HK ltac:(lia)) as (e0 & E0 & [[O1 O2 O3 (A0 & A1 & A2 & A3) (B0 & B1 & B2 & B3) (C0 & C1 & C2 & C3)] O7] & V0).
  unfold fresh. rewrite E0, bind_Ok.
  assert (Z1 : qn (dat (e_first e0)) 0 = 0%Qc) by (apply (V0 (C_first, 0)); unfold ixE; cbn; lia).
  assert (Z2 : qn (dat (e_second e0)) 0 = 0%Qc) by (apply (V0 (C_second, 0)); unfold ixE; cbn; lia).
  assert (Z3 : qn (dat (e_norm e0)) 0 = 0%Qc) by (apply (V0 (C_norm, 0)); unfold ixE; cbn; lia).
  assert (HU : forall b, b = true -> assertb asrt b = Ok tt) by (intros b ->; destruct asrt; reflexivity).
  destruct c as [f|f m| | | | | |]; cbn [mean_call] in HC; try contradiction; cbn [add].
  - unfold mean. rewrite A0, A1, A2, !HU; auto; [|unfold unlocked; rewrite O7; reflexivity]. rewrite !bind_Ok. unfold plus0. rewrite !vget_qn by lia. rewrite !bind_Ok.
    rewrite Z1, Z2, Z3. eexists. split; [reflexivity|]. cbn [mean_values]. unfold first_at, second_at, norm_at, data_first, data_second, norm. cbn [set_data e_first e_second e_norm dat].
    rewrite !(qn_upd _ 0 0) by lia. rewrite Z.eqb_refl. rewrite qsum_over, qsum_map. split; [ring|]. split; ring.
  - destruct HC as (shape & (Hf1 & Hf2) & (Hm1 & Hm2) & Hm3).
    assert (EB : shape_eqb (i_shape f) (i_shape m) = true) by (rewrite Hf1, Hm1; apply shape_eqb_refl).
    unfold mean_masked. rewrite A0, A1, A2, EB, !HU; auto; [|unfold unlocked; rewrite O7; reflexivity|apply binary_ok; exact Hm3].
    rewrite !bind_Ok. cbn [negb]. cbv zeta. unfold plus0. rewrite !vget_qn by lia. rewrite !bind_Ok.
    rewrite Z1, Z2, Z3. eexists. split; [reflexivity|]. cbn [mean_values]. unfold first_at, second_at, norm_at, data_first, data_second, norm. cbn [set_data e_first e_second e_norm dat].
    rewrite !(qn_upd _ 0 0) by lia. rewrite Z.eqb_refl. rewrite !qsum_map.
    assert (EL : length (i_vals f) = length (i_vals m)) by (unfold lenZ in *; lia).
    clear - EL Hm3. rewrite !Qcplus_0_l. remember (i_vals f) as a. remember (i_vals m) as b. clear Heqa Heqb f m. revert b EL Hm3.
    induction a as [|x a IH]; intros [|y b] EL Hm3; try discriminate; [repeat split; reflexivity|]. cbn [combine filter map fst snd sum_over fold_right].
    destruct (IH b) as (I1 & I2 & I3); [cbn in EL; lia|intros; apply Hm3; right; auto|]. unfold sum_over in I1, I2. cbn [zsum fold_right map].
    destruct (Hm3 y (or_introl eq_refl)) as [-> | ->]; cbn [Z.eqb map fst fold_right].
    + split; [rewrite I1; reflexivity|]. split; [rewrite I2; reflexivity|].
      apply zq_inj in I3. apply (f_equal Z.succ) in I3. unfold lenZ in I3. rewrite <- Nat2Z.inj_succ in I3. f_equal. etransitivity; [|exact I3]. unfold zsum. lia.
    + rewrite I1, I2. split; [ring|]. split; [ring|]. exact I3.
Qed.

Lemma sum_concat : forall cs (T : Qc -> Qc), sum_over (flat_map mean_values cs) T = sum_over cs (fun c => sum_over (mean_values c) T).
Proof. intros cs T. induction cs as [|c cs IH]; cbn [flat_map]; auto. rewrite sum_app, IH. reflexivity. Qed.

Lemma var_formula : forall l n, n = zq (lenZ l) -> (n <> 0)%Qc -> (n - 1 <> 0)%Qc ->
  ((sum_over l (fun x => x * x) / n - (sum_over l (fun x => x) / n) * (sum_over l (fun x => x) / n)) * n / (n - 1) = sample_variance l)%Qc.
Proof.
  intros l n En N0 N1. unfold sample_variance, average. rewrite <- En. set (A := sum_over l (fun x => x)). set (B := sum_over l (fun x => (x * x)%Qc)).
  assert (E : sum_over l (fun x => (x - A / n) * (x - A / n))%Qc = (B - (zq 2) * (A / n) * A + n * ((A / n) * (A / n)))%Qc).
  { rewrite En. unfold A, B. generalize (sum_over l (fun x => x) / zq (lenZ l))%Qc. intros a. clear. induction l as [|x l IH].
    - unfold lenZ. cbn. rewrite zq_0. ring.
    - cbn [sum_over fold_right] in *. unfold sum_over in *. rewrite IH. unfold lenZ. cbn [length]. rewrite Nat2Z.inj_succ. unfold Z.succ. rewrite zq_plus, zq_1.
      replace (zq 2) with (1 + 1)%Qc by reflexivity. ring. }
  rewrite E. replace (zq 2) with (1 + 1)%Qc by reflexivity. field. split; auto.
Qed.

(** The sums that [mean] keeps. *)
Lemma mean_data : forall asrt roi per var e0 cs, Forall (fun n => n = 1) roi -> (length roi <= 3)%nat ->
  ensemble asrt roi per var = Ok e0 -> (forall c, In c cs -> mean_call c) ->
  let l := flat_map mean_values cs in
  exists e, run asrt cs e0 = Ok e /\
    dat (e_first e) = [sum_over l (fun x => x)] /\ dat (e_second e) = [sum_over l (fun x => x * x)%Qc] /\ dat (e_norm e) = [zq (lenZ l)] /\
    (1 <= lenZ l -> e_stat e = S_mean).
Proof.
  intros asrt roi per var e0 cs H1 HL HE HC l. assert (HR : Forall (fun n => 0 <= n) roi) by (eapply Forall_impl; [|exact H1]; cbn; intros; lia).
  assert (HK : shape3 roi = Ok (1, 1, 1)).
  { destruct roi as [|a [|b [|d [|? ?]]]]; cbn [length] in HL; try lia; repeat match goal with H : Forall _ (_ :: _) |- _ => inversion H; clear H; subst end; reflexivity. }
  assert (HF : forall c, In c cs -> exists ec, fresh asrt roi per var c = Ok ec).
  { intros c IN. destruct (mean_one asrt roi per var c H1 HL (HC c IN)) as (ec & E & _). eauto. }
  assert (HM : forall c, In c cs -> stat_of c = S_mean).
  { intros c IN. specialize (HC c IN). destruct c; try contradiction; reflexivity. }
  destruct (add_runs asrt roi per var e0 cs HR HE (ex_intro _ S_mean HM) HF) as [e H]. exists e. split; auto.
  pose proof (ok0 asrt per var roi 1 1 1 HR HK e0 HE) as O.
  destruct (run_data asrt per var roi 1 1 1 HR HK e0 HE cs e0 e (proj1 O) H) as (O1 & es & F1 & V1).
  assert (Z0 : forall c, vecE e (c, 0) = sum_over es (fun x => vecE x (c, 0))).
  { intros c. rewrite V1 by (unfold ixE; cbn; lia). rewrite (zero0 asrt per var roi 1 1 1 HR HK e0 HE) by (unfold ixE; cbn; lia). ring. }
  assert (D1 : qn (dat (e_first e)) 0 = sum_over l (fun x => x)).
  { unfold l. change (vecE e (C_first, 0) = sum_over (flat_map mean_values cs) (fun x => x)). rewrite Z0, (sum_over_fresh _ _ _ _ F1), sum_concat. apply sum_ext. intros c IN.
    destruct (mean_one asrt roi per var c H1 HL (HC c IN)) as (ec & E & A & B & C). rewrite E. exact A. }
  assert (D2 : qn (dat (e_second e)) 0 = sum_over l (fun x => x * x)%Qc).
  { unfold l. change (vecE e (C_second, 0) = sum_over (flat_map mean_values cs) (fun x => x * x)%Qc). rewrite Z0, (sum_over_fresh _ _ _ _ F1), sum_concat. apply sum_ext. intros c IN.
    destruct (mean_one asrt roi per var c H1 HL (HC c IN)) as (ec & E & A & B & C). rewrite E. exact B. }
  assert (D3 : qn (dat (e_norm e)) 0 = zq (lenZ l)).
  { rewrite <- sum_one. unfold l. change (vecE e (C_norm, 0) = sum_over (flat_map mean_values cs) (fun _ => 1)%Qc). rewrite Z0, (sum_over_fresh _ _ _ _ F1), sum_concat. apply sum_ext. intros c IN.
    destruct (mean_one asrt roi per var c H1 HL (HC c IN)) as (ec & E & A & B & C). rewrite E, sum_one. exact C. }
  destruct O1 as [_ _ _ (A0 & A1 & A2 & A3) (B0 & B1 & B2 & B3) (C0 & C1 & C2 & C3)].
  assert (ONE : forall v : list Qc, lenZ v = 1 * 1 * 1 -> exists x, v = [x]).
  { intros [|x [|y v]]; unfold lenZ; cbn [length]; try lia. eauto. }
  destruct (ONE _ A3) as [a Ea]. destruct (ONE _ B3) as [b Eb]. destruct (ONE _ C3) as [c Ec].
  rewrite Ea in D1. rewrite Eb in D2. rewrite Ec in D3. unfold qn in D1, D2, D3. cbn [Z.to_nat nth] in D1, D2, D3. subst a b c.
  assert (ST : 1 <= lenZ l -> e_stat e = S_mean).
  { intros Hl. destruct (rev cs) as [|c r] eqn:ER.
    - apply (f_equal (@rev call)) in ER. rewrite rev_involutive in ER. unfold l in Hl. rewrite ER in Hl. cbn in Hl. lia.
    - apply (f_equal (@rev call)) in ER. rewrite rev_involutive in ER. cbn [rev] in ER. rewrite <- (HM c) by (rewrite ER; apply in_or_app; right; left; auto).
      rewrite ER in H. eapply run_stat with (k0 := 1) (k1 := 1) (k2 := 1); eauto. apply O. }
  auto.
Qed.

Lemma mean_run : forall asrt roi per var e0 cs, Forall (fun n => n = 1) roi -> (length roi <= 3)%nat ->
  ensemble asrt roi per var = Ok e0 -> (forall c, In c cs -> mean_call c) ->
  let l := flat_map mean_values cs in
  exists e, run asrt cs e0 = Ok e /\
    (1 <= lenZ l -> result e = [Exact (average l)]) /\
    (2 <= lenZ l -> variance e = Ok [Exact (sample_variance l)]).
Proof.
  intros asrt roi per var e0 cs H1 HL HE HC l. destruct (mean_data asrt roi per var e0 cs H1 HL HE HC) as (e & H & Ea & Eb & Ec & ST). fold l in Ea, Eb, Ec, ST.
  exists e. split; auto.
  assert (SF : 1 <= lenZ l -> safe (zq (lenZ l)) = zq (lenZ l)).
  { intros Hl. unfold safe. replace (Qclt_b 0 (zq (lenZ l))) with true; auto. symmetry. apply Qclt_b_iff. rewrite <- zq_0. apply zq_lt. lia. }
  split; intros Hl.
  - unfold result. rewrite ST by lia. rewrite Ea, Ec. cbn [combine map fst snd]. rewrite SF by lia. reflexivity.
  - unfold variance. rewrite ST by lia. rewrite Ea, Eb, Ec. cbn [combine map fst snd]. unfold var_of. rewrite SF by lia. cbv zeta.
    assert (N1 : (zq (lenZ l) - 1 <> 0)%Qc). { rewrite <- zq_1, <- zq_sub, <- zq_0. intros EQ. apply zq_inj in EQ. lia. }
    assert (N0 : (zq (lenZ l) <> 0)%Qc). { rewrite <- zq_0. intros EQ. apply zq_inj in EQ. lia. }
    destruct (Qceq_b _ _) eqn:EQ; [apply Qceq_b_iff in EQ; contradiction|]. rewrite var_formula; auto.
Qed.
