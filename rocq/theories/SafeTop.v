(** * SafeTop: which calls are accepted, and that none leaves its images or its data (C132, proofs only) *)

From Coq Require Import ZArith QArith Qcanon List Bool Lia.
From Verif Require Import Base BaseLemmas SpecCluster ClusterGeom Array3 Array3Lemmas Path SpecPath SpecDilate DilateTop Ensemble SpecEnsemble EnsembleSums EnsembleLin EnsembleWindow EnsembleTop EnsembleL EnsembleW2c EnsembleAdd EnsembleRun Refused SpecRefused RefusedTop SpecSafe SafeProofs.
Import ListNotations.
Open Scope Z_scope.

Lemma shape_eqb_true : forall a b, shape_eqb a b = true -> a = b.
Proof.
  induction a as [|x a IH]; intros [|y b] H; try discriminate; auto. cbn [shape_eqb] in H. apply andb_true_iff in H. destruct H as [H1 H2].
  apply Z.eqb_eq in H1. f_equal; auto.
Qed.

Lemma binary_true : forall m, binary m = true -> forall x, In x (i_vals m) -> x = 0 \/ x = 1.
Proof.
  intros m H x Hx. unfold binary in H. rewrite forallb_forall in H. specialize (H x Hx). apply orb_true_iff in H. rewrite !Z.eqb_eq in H. exact H.
Qed.

Lemma whole_image : forall A (f : img A) s, whole f -> i_shape f = s -> is_image s f.
Proof. intros A f s [H _] E. split; auto. rewrite <- E. exact H. Qed.

Lemma ones3 : forall roi k0 k1 k2, shape3 roi = Ok (k0, k1, k2) -> ((k0 =? 1) && (k1 =? 1) && (k2 =? 1) = true <-> Forall (fun n => n = 1) roi).
Proof.
  intros roi k0 k1 k2 H. rewrite !andb_true_iff, !Z.eqb_eq. destruct roi as [|a [|b [|c [|d s]]]]; cbn [shape3] in H; inversion H; subst; rewrite ?Forall_cons_iff.
  - split; auto.
  - split; [intros [[]]; auto|intros [-> _]; auto].
  - split; [intros [[-> ->] _]; auto|intros (-> & -> & _); auto].
  - split; [intros [[-> ->] ->]; auto|intros (-> & -> & -> & _); auto].
Qed.

Lemma assert_if : forall asrt b, (asrt = true -> b = true) -> assertb asrt b = Ok tt.
Proof. intros [] b H; [rewrite H; auto|reflexivity]. Qed.

Section Call.
Variables (asrt per var : bool) (roi : list Z) (k0 k1 k2 : Z).
Hypothesis HR : region roi.
Hypothesis HK : shape3 roi = Ok (k0, k1, k2).

Lemma Kpos : 1 <= k0 /\ 1 <= k1 /\ 1 <= k2.
Proof. apply (shape3_pos roi); auto. destruct HR as [_ H]. eapply Forall_impl; [|exact H]. cbn. lia. Qed.

Lemma ok_after : forall e c e', okE per var roi k0 k1 k2 e -> add asrt e c = Ok e' -> okS (stat_of c) per var roi k0 k1 k2 e'.
Proof.
  intros e c e' HO HA. pose proof Kpos as KP. assert (KN : 0 <= k0 /\ 0 <= k1 /\ 0 <= k2) by lia.
  destruct (add_any asrt per var roi k0 k1 k2 KN c) as [o H]. pose proof (H e (conj HO (add_unlocked _ _ _ _ HA))) as H1.
  destruct o as [D| | |]; [|rewrite HA in H1; discriminate..]. destruct H1 as (e1 & E1 & P1 & _). rewrite HA in E1. inversion E1; subst. exact P1.
Qed.

Lemma dims_of : forall c, whole_call c -> usable per roi c -> stat_of c <> S_mean -> length (image_shape c) = length roi ->
  Forall (fun n => 1 <= n) (image_shape c) -> exists n0 n1 n2, dims3 per roi (image_shape c) n0 n1 n2 k0 k1 k2.
Proof.
  intros c HW [HU _] HM HL HP. destruct HR as [R3 RP].
  destruct (shapes_dims3 per roi (image_shape c)) as (n0 & n1 & n2 & j0 & j1 & j2 & HD).
  { split; [auto|]. split; [lia|]. split; [exact RP|]. split; auto. }
  pose proof (D_k _ _ _ _ _ _ _ _ _ HD) as E. rewrite HK in E. inversion E; subst. eauto.
Qed.

Lemma plus0_ok : forall A v, dims k0 k1 k2 A -> exists A', plus0 A v = Ok A'.
Proof.
  intros A v (_ & _ & _ & E). unfold plus0. pose proof Kpos as KP. assert (1 <= k0 * k1 * k2) by nia. rewrite vget_qn by lia. rewrite bind_Ok. eauto.
Qed.

Lemma zeros_fine : forall s, Forall (fun n => 1 <= n) s -> is_image s (zeros s) /\ zo asrt (zeros s).
Proof. intros s H. destruct (zeros_mask s H) as [A B]. split; auto. intros _. exact B. Qed.

Lemma call_fine : forall c e, whole_call c -> usable per roi c -> same_shapes c -> same_rank roi c ->
  (asrt = true -> one_pixel roi c /\ zero_one c) -> okE per var roi k0 k1 k2 e -> (asrt = true -> unlocked e (stat_of c) = true) ->
  exists e', add asrt e c = Ok e'.
Proof.
  intros c e HW HU HSS HRK HAS HO HL. pose proof (conj HO HL : before asrt (stat_of c) per var roi k0 k1 k2 e) as HB.
  assert (HZ : forall m, In m (masks c) -> zo asrt m) by (intros m IN EA; apply (proj2 (HAS EA)); exact IN).
  destruct HW as [HM HW]. rewrite Forall_forall in HM.
  assert (HMI : forall m, In m (masks c) -> is_image (image_shape c) m).
  { intros m IN. apply whole_image; auto. apply HSS. unfold other_shapes. apply in_or_app. right. apply in_map. exact IN. }
  destruct c as [f|f m|f g m|f g m|w f m|cl ce f m mode|f m|f mode]; cbn [stat_of add image_shape masks] in *.
  - (* mean *)
    pose proof HO as [_ _ _ A B C]. destruct (plus0_ok (e_first e) (qsum (i_vals f)) A) as [a Ea].
    destruct (plus0_ok (e_second e) (qsum (map (fun x => x * x)%Qc (i_vals f))) B) as [b Eb]. destruct (plus0_ok (e_norm e) (zq (lenZ (i_vals f))) C) as [d Ed].
    unfold mean. rewrite (before_assert _ _ _ _ _ _ _ _ _ HB), Ea, Eb, Ed. destruct A as (A0 & A1 & A2 & _). rewrite A0, A1, A2.
    rewrite assert_if by (intros EA; apply (ones3 roi); auto; apply HAS; auto). rewrite !bind_Ok. eauto.
  - (* masked mean *)
    assert (ES : i_shape m = i_shape f) by (apply HSS; left; auto).
    unfold mean_masked. rewrite (before_assert _ _ _ _ _ _ _ _ _ HB), ES, shape_eqb_refl. cbn [negb]. pose proof HO as [_ _ _ A B C].
    destruct (plus0_ok (e_first e) (qsum (map (fun x => (fun (x : Qc * Z) (y : Qc) => if snd x =? 0 then y else 0%Qc) x (fst x)) (combine (i_vals f) (i_vals m)))) A) as [a Ea].
    destruct (plus0_ok (e_second e) (qsum (map (fun x => (fun (x : Qc * Z) (y : Qc) => if snd x =? 0 then y else 0%Qc) x (fst x * fst x)%Qc) (combine (i_vals f) (i_vals m)))) B) as [b Eb].
    destruct (plus0_ok (e_norm e) (zq (zsum (map (fun m => 1 - m) (i_vals m)))) C) as [d Ed]. cbv zeta. cbv beta in Ea, Eb. rewrite Ea, Eb, Ed.
    destruct A as (A0 & A1 & A2 & _). rewrite A0, A1, A2, (zo_assert asrt m) by (apply HZ; left; auto).
    rewrite (assert_true asrt true eq_refl), assert_if by (intros EA; apply (ones3 roi); auto; apply HAS; auto). rewrite !bind_Ok. eauto.
  - (* S2 *)
    destruct HW as [Wf Wg]. destruct HRK as [HRK|HRK]; [discriminate|].
    destruct (dims_of (CallS2 f g m)) as (n0 & n1 & n2 & HD); auto; [split; [apply Forall_forall; exact HM|split; auto]|discriminate|apply Wf|]. cbn [image_shape] in HD.
    assert (Hg : is_image (i_shape f) g) by (apply whole_image; auto; apply HSS; left; auto).
    assert (X : is_image (i_shape f) (fst (mask2 f m)) /\ is_image (i_shape f) (snd (mask2 f m)) /\ zo asrt (fst (mask2 f m)) /\ zo asrt (snd (mask2 f m))).
    { destruct m as [[a b]|]; cbn [mask2 fst snd masks] in *.
      - split; [apply HMI; left; auto|]. split; [apply HMI; right; left; auto|]. split; apply HZ; [left|right; left]; auto.
      - destruct (zeros_fine (i_shape f) (proj2 Wf)). auto. }
    destruct X as (X1 & X2 & X3 & X4). destruct (S2_fine asrt per var roi (i_shape f) n0 n1 n2 k0 k1 k2 HD f g _ _ (whole_image _ f _ Wf eq_refl) Hg X1 X2 X3 X4) as [D LD].
    destruct (LD e HB) as (e' & E & _). eauto.
  - (* C2 *)
    destruct HW as [Wf Wg]. destruct HRK as [HRK|HRK]; [discriminate|].
    destruct (dims_of (CallC2 f g m)) as (n0 & n1 & n2 & HD); auto; [split; [apply Forall_forall; exact HM|split; auto]|discriminate|apply Wf|]. cbn [image_shape] in HD.
    assert (Hg : is_image (i_shape f) g) by (apply whole_image; auto; apply HSS; left; auto).
    assert (X : is_image (i_shape f) (fst (mask2 f m)) /\ is_image (i_shape f) (snd (mask2 f m)) /\ zo asrt (fst (mask2 f m)) /\ zo asrt (snd (mask2 f m))).
    { destruct m as [[a b]|]; cbn [mask2 fst snd masks] in *.
      - split; [apply HMI; left; auto|]. split; [apply HMI; right; left; auto|]. split; apply HZ; [left|right; left]; auto.
      - destruct (zeros_fine (i_shape f) (proj2 Wf)). auto. }
    destruct X as (X1 & X2 & X3 & X4). destruct (C2_fine asrt per var roi (i_shape f) n0 n1 n2 k0 k1 k2 HD f g _ _ (whole_image _ f _ Wf eq_refl) Hg X1 X2 X3 X4) as [D LD].
    destruct (LD e HB) as (e' & E & _). eauto.
  - (* W2 *)
    destruct HW as [Wf Wg]. destruct HRK as [HRK|HRK]; [discriminate|].
    destruct (dims_of (CallW2 w f m)) as (n0 & n1 & n2 & HD); auto; [split; [apply Forall_forall; exact HM|split; auto]|discriminate|apply Wf|]. cbn [image_shape] in HD.
    assert (Hg : is_image (i_shape w) f) by (apply whole_image; auto; apply HSS; left; auto).
    assert (X : is_image (i_shape w) (mask1 w m) /\ zo asrt (mask1 w m)).
    { destruct m as [a|]; cbn [mask1 masks] in *; [|apply (zeros_fine (i_shape w) (proj2 Wf))]. split; [apply HMI|apply HZ]; left; auto. }
    destruct X as (X1 & X2). destruct (W2_fine asrt per var roi (i_shape w) n0 n1 n2 k0 k1 k2 HD w f _ (whole_image _ w _ Wf eq_refl) Hg X1 X2) as [D LD].
    destruct (LD e HB) as (e' & E & _). eauto.
  - (* W2c *)
    destruct HW as (Wc & We & Wf). destruct HRK as [HRK|HRK]; [discriminate|].
    destruct (dims_of (CallW2c cl ce f m mode)) as (n0 & n1 & n2 & HD); auto; [split; [apply Forall_forall; exact HM|split; auto]|discriminate|apply Wf|]. cbn [image_shape] in HD.
    assert (Hc : is_image (i_shape f) cl) by (apply whole_image; auto; apply HSS; left; auto).
    assert (He : is_image (i_shape f) ce) by (apply whole_image; auto; apply HSS; right; left; auto).
    assert (X : is_image (i_shape f) (mask1 f m) /\ zo asrt (mask1 f m)).
    { destruct m as [a|]; cbn [mask1 masks] in *; [|apply (zeros_fine (i_shape f) (proj2 Wf))]. split; [apply HMI|apply HZ]; left; auto. }
    destruct X as (X1 & X2). destruct HU as (_ & HU1 & HU2).
    destruct (W2c_fine asrt per var roi (i_shape f) n0 n1 n2 k0 k1 k2 HD cl ce f _ mode Hc He (whole_image _ f _ Wf eq_refl) X1 X2 HU1 HU2) as [D LD].
    destruct (LD e HB) as (e' & E & _). eauto.
  - (* heightheight *)
    destruct HRK as [HRK|HRK]; [discriminate|].
    destruct (dims_of (CallHH f m)) as (n0 & n1 & n2 & HD); auto; [split; [apply Forall_forall; exact HM|auto]|discriminate|apply HW|]. cbn [image_shape] in HD.
    assert (X : is_image (i_shape f) (mask1 f m) /\ zo asrt (mask1 f m)).
    { destruct m as [a|]; cbn [mask1 masks] in *; [|apply (zeros_fine (i_shape f) (proj2 HW))]. split; [apply HMI|apply HZ]; left; auto. }
    destruct X as (X1 & X2). destruct (hh_fine asrt per var roi (i_shape f) n0 n1 n2 k0 k1 k2 HD f _ (whole_image _ f _ HW eq_refl) X1 X2) as [D LD].
    destruct (LD e HB) as (e' & E & _). eauto.
  - (* L *)
    destruct HRK as [HRK|HRK]; [discriminate|].
    destruct (dims_of (CallL f mode)) as (n0 & n1 & n2 & HD); auto; [split; [apply Forall_forall; exact HM|auto]|discriminate|apply HW|]. cbn [image_shape] in HD.
    destruct HU as (_ & HU1). destruct (L_fine asrt per var roi (i_shape f) n0 n1 n2 k0 k1 k2 HD f mode (whole_image _ f _ HW eq_refl) HU1) as [D LD].
    destruct (LD e HB) as (e' & E & _). eauto.
Qed.
End Call.

(** With assertions enabled a call that is not proper, or of another measure, throws. *)
Lemma call_throws : forall per var roi k0 k1 k2 c e, shape3 roi = Ok (k0, k1, k2) -> okE per var roi k0 k1 k2 e ->
  ~ (proper roi c /\ unlocked e (stat_of c) = true) -> add true e c = Throw.
Proof.
  intros per var roi k0 k1 k2 c e HK HO HN. pose proof (ok_roi _ _ _ _ _ _ _ HO) as ER. pose proof HO as [_ _ _ (A0 & A1 & A2 & _) _ _].
  pose proof (ones3 roi k0 k1 k2 HK) as H1.
  destruct c as [f|f m|f g m|f g m|w f m|cl ce f m mode|f m|f mode]; cbn [add stat_of] in *.
  - unfold mean. rewrite A0, A1, A2. destruct ((k0 =? 1) && (k1 =? 1) && (k2 =? 1)); [|reflexivity]. cbn [assertb bind].
    destruct (unlocked e S_mean); [|reflexivity]. exfalso. apply HN. split; auto. split; [intros s []|]. split; [left; auto|]. split; [intros _; apply H1; auto|intros m []].
  - unfold mean_masked. destruct (shape_eqb (i_shape f) (i_shape m)) eqn:E1; [|reflexivity]. cbn [assertb bind].
    destruct (binary m) eqn:E2; [|reflexivity]. cbn [assertb bind]. rewrite A0, A1, A2. destruct ((k0 =? 1) && (k1 =? 1) && (k2 =? 1)); [|reflexivity]. cbn [assertb bind].
    destruct (unlocked e S_mean); [|reflexivity]. exfalso. apply HN. apply shape_eqb_true in E1. split; auto. split; [intros s [<-|[]]; auto|].
    split; [left; auto|]. split; [intros _; apply H1; auto|intros m' [<-|[]]; apply binary_true; auto].
  - unfold S2. destruct (shape_eqb (i_shape f) (i_shape g)) eqn:E1; [|reflexivity]. cbn [assertb bind].
    destruct (shape_eqb (i_shape f) (i_shape (fst (mask2 f m)))) eqn:E2; [|reflexivity]. cbn [assertb bind].
    destruct (shape_eqb (i_shape f) (i_shape (snd (mask2 f m)))) eqn:E3; [|reflexivity]. cbn [assertb bind]. rewrite ER.
    destruct (Nat.eqb (length (i_shape f)) (length roi)) eqn:E4; [|reflexivity]. cbn [assertb bind].
    destruct (binary (fst (mask2 f m))) eqn:E5; [|reflexivity]. cbn [assertb bind]. destruct (binary (snd (mask2 f m))) eqn:E6; [|reflexivity]. cbn [assertb bind].
    destruct (unlocked e S_S2); [|reflexivity]. exfalso. apply HN. split; auto. apply shape_eqb_true in E1, E2, E3. apply Nat.eqb_eq in E4.
    split; [|split; [right; exact E4|split; [discriminate|]]].
    + intros s IN. unfold other_shapes in IN. destruct m as [[a b]|]; cbn [masks app map mask2 fst snd image_shape] in *; cbn [In] in IN; intuition congruence.
    + intros x IN. destruct m as [[a b]|]; cbn [masks mask2 fst snd] in *; [|destruct IN]. destruct IN as [<-|[<-|[]]]; apply binary_true; auto.
  - unfold C2. destruct (shape_eqb (i_shape f) (i_shape g)) eqn:E1; [|reflexivity]. cbn [assertb bind].
    destruct (shape_eqb (i_shape f) (i_shape (fst (mask2 f m)))) eqn:E2; [|reflexivity]. cbn [assertb bind].
    destruct (shape_eqb (i_shape f) (i_shape (snd (mask2 f m)))) eqn:E3; [|reflexivity]. cbn [assertb bind]. rewrite ER.
    destruct (Nat.eqb (length (i_shape f)) (length roi)) eqn:E4; [|reflexivity]. cbn [assertb bind].
    destruct (binary (fst (mask2 f m))) eqn:E5; [|reflexivity]. cbn [assertb bind]. destruct (binary (snd (mask2 f m))) eqn:E6; [|reflexivity]. cbn [assertb bind].
    destruct (unlocked e S_C2); [|reflexivity]. exfalso. apply HN. split; auto. apply shape_eqb_true in E1, E2, E3. apply Nat.eqb_eq in E4.
    split; [|split; [right; exact E4|split; [discriminate|]]].
    + intros s IN. unfold other_shapes in IN. destruct m as [[a b]|]; cbn [masks app map mask2 fst snd image_shape] in *; cbn [In] in IN; intuition congruence.
    + intros x IN. destruct m as [[a b]|]; cbn [masks mask2 fst snd] in *; [|destruct IN]. destruct IN as [<-|[<-|[]]]; apply binary_true; auto.
  - unfold W2. destruct (shape_eqb (i_shape w) (i_shape f)) eqn:E1; [|reflexivity]. cbn [assertb bind].
    destruct (shape_eqb (i_shape w) (i_shape (mask1 w m))) eqn:E2; [|reflexivity]. cbn [assertb bind]. rewrite ER.
    destruct (Nat.eqb (length (i_shape w)) (length roi)) eqn:E4; [|reflexivity]. cbn [assertb bind].
    destruct (binary (mask1 w m)) eqn:E5; [|reflexivity]. cbn [assertb bind].
    destruct (unlocked e S_W2); [|reflexivity]. exfalso. apply HN. split; auto. apply shape_eqb_true in E1, E2. apply Nat.eqb_eq in E4.
    split; [|split; [right; exact E4|split; [discriminate|]]].
    + intros s IN. unfold other_shapes in IN. destruct m as [a|]; cbn [masks app map mask1 image_shape] in *; cbn [In] in IN; intuition congruence.
    + intros x IN. destruct m as [a|]; cbn [masks mask1] in *; [|destruct IN]. destruct IN as [<-|[]]; apply binary_true; auto.
  - unfold W2c. destruct (shape_eqb (i_shape f) (i_shape cl)) eqn:E1; [|reflexivity]. cbn [assertb bind].
    destruct (shape_eqb (i_shape f) (i_shape ce)) eqn:E3; [|reflexivity]. cbn [assertb bind].
    destruct (shape_eqb (i_shape f) (i_shape (mask1 f m))) eqn:E2; [|reflexivity]. cbn [assertb bind]. rewrite ER.
    destruct (Nat.eqb (length (i_shape f)) (length roi)) eqn:E4; [|reflexivity]. cbn [assertb bind].
    destruct (binary (mask1 f m)) eqn:E5; [|reflexivity]. cbn [assertb bind].
    destruct (unlocked e S_W2c); [|reflexivity]. exfalso. apply HN. split; auto. apply shape_eqb_true in E1, E2, E3. apply Nat.eqb_eq in E4.
    split; [|split; [right; exact E4|split; [discriminate|]]].
    + intros s IN. unfold other_shapes in IN. destruct m as [a|]; cbn [masks app map mask1 image_shape] in *; cbn [In] in IN; intuition congruence.
    + intros x IN. destruct m as [a|]; cbn [masks mask1] in *; [|destruct IN]. destruct IN as [<-|[]]; apply binary_true; auto.
  - unfold heightheight. destruct (shape_eqb (i_shape f) (i_shape (mask1 f m))) eqn:E2; [|reflexivity]. cbn [assertb bind]. rewrite ER.
    destruct (Nat.eqb (length (i_shape f)) (length roi)) eqn:E4; [|reflexivity]. cbn [assertb bind].
    destruct (binary (mask1 f m)) eqn:E5; [|reflexivity]. cbn [assertb bind].
    destruct (unlocked e S_heightheight); [|reflexivity]. exfalso. apply HN. split; auto. apply shape_eqb_true in E2. apply Nat.eqb_eq in E4.
    split; [|split; [right; exact E4|split; [discriminate|]]].
    + intros s IN. unfold other_shapes in IN. destruct m as [a|]; cbn [masks app map mask1 image_shape] in *; cbn [In] in IN; intuition congruence.
    + intros x IN. destruct m as [a|]; cbn [masks mask1] in *; [|destruct IN]. destruct IN as [<-|[]]; apply binary_true; auto.
  - unfold L. rewrite ER. destruct (Nat.eqb (length (i_shape f)) (length roi)) eqn:E4; [|reflexivity]. cbn [assertb bind].
    destruct (unlocked e S_L); [|reflexivity]. exfalso. apply HN. split; auto. apply Nat.eqb_eq in E4.
    split; [|split; [right; exact E4|split; [discriminate|]]]; intros ? [].
Qed.

Lemma proper_dec : forall roi c, proper roi c \/ ~ proper roi c.
Proof.
  intros roi c.
  assert (D : forall P Q : Prop, P \/ ~ P -> Q \/ ~ Q -> (P /\ Q) \/ ~ (P /\ Q)) by tauto.
  assert (DA : forall A (l : list A) (P : A -> Prop), (forall x, P x \/ ~ P x) -> (forall x, In x l -> P x) \/ ~ (forall x, In x l -> P x)).
  { intros A l P H. induction l as [|x l IH]; [left; intros x []|]. destruct (H x) as [HX|HX].
    - destruct IH as [IH|IH]; [left; intros y [<-|IN]; auto|right; intros K; apply IH; intros y IN; apply K; right; auto].
    - right. intros K. apply HX. apply K. left; auto. }
  assert (DZ : forall a b : list Z, a = b \/ ~ a = b) by (intros a b; destruct (list_eq_dec Z.eq_dec a b); auto).
  repeat apply D.
  - apply DA. intros s. apply DZ.
  - unfold same_rank. destruct (Nat.eq_dec (length (image_shape c)) (length roi)); [auto|]. destruct c; cbn [stat_of]; auto; right; intros [X|X]; try discriminate; contradiction.
  - unfold one_pixel. assert (X : Forall (fun n => n = 1) roi \/ ~ Forall (fun n => n = 1) roi).
    { rewrite Forall_forall. apply DA. intros n. destruct (Z.eq_dec n 1); auto. }
    destruct X; [auto|]. destruct c; cbn [stat_of]; try (left; discriminate); right; auto.
  - unfold zero_one. apply DA. intros m. apply DA. intros x. destruct (Z.eq_dec x 0), (Z.eq_dec x 1); auto. right. tauto.
Qed.

Lemma region_nonneg : forall roi, region roi -> Forall (fun n => 0 <= n) roi.
Proof. intros roi [_ H]. eapply Forall_impl; [|exact H]. cbn. lia. Qed.

Lemma unlocked_run : forall roi per var e0 cs e c, region roi -> ensemble true roi per var = Ok e0 -> run true cs e0 = Ok e ->
  (unlocked e (stat_of c) = true <-> one_measure (c :: cs)).
Proof.
  intros roi per var e0 cs e c HR HE H. pose proof (region_nonneg _ HR) as HN. destruct (ensemble_inv _ _ _ _ _ HE) as (k0 & k1 & k2 & HK & _).
  pose proof (ok0 true per var roi k0 k1 k2 HN HK e0 HE) as O. destruct cs as [|c1 cs].
  - unfold run in H. cbn in H. inversion H; subst. unfold unlocked. rewrite (proj2 O). split; [intros _; exists (stat_of c); intros x [<-|[]]; auto|].
    intros _. rewrite orb_true_r. reflexivity.
  - pose proof (lock_history roi per var e0 c1 cs e HN HE H) as (L1 & _).
    assert (ES : e_stat e = stat_of c1).
    { destruct (exists_last (l := c1 :: cs)) as (l & x & EL); [discriminate|]. rewrite EL in H.
      rewrite (run_stat true per var roi k0 k1 k2 HN HK e0 HE l e0 e x (proj1 O) H).
      assert (IN : In x (c1 :: cs)) by (rewrite EL; apply in_or_app; right; left; auto). destruct IN as [<-|IN]; auto. }
    unfold unlocked. rewrite ES. split.
    + intros U. exists (stat_of c). apply orb_true_iff in U.
      assert (E : stat_of c1 = stat_of c) by (destruct U as [U|U]; destruct c1, c; cbn [stat_of] in *; try reflexivity; discriminate U).
      intros x [<-|[<-|IN]]; auto. rewrite <- E. auto.
    + intros [s HS]. rewrite (HS c), (HS c1) by (cbn; auto). apply orb_true_iff. left. apply stat_eqb_refl.
Qed.

Lemma accepted_or_refused : forall roi per var e0 cs e c, region roi -> ensemble true roi per var = Ok e0 -> run true cs e0 = Ok e ->
  whole_call c -> usable per roi c ->
  (proper roi c /\ one_measure (c :: cs) /\ exists e', add true e c = Ok e') \/
  (~ (proper roi c /\ one_measure (c :: cs)) /\ add true e c = Throw).
Proof.
  intros roi per var e0 cs e c HR HE H HW HU. pose proof (region_nonneg _ HR) as HN. destruct (ensemble_inv _ _ _ _ _ HE) as (k0 & k1 & k2 & HK & _).
  pose proof (ok0 true per var roi k0 k1 k2 HN HK e0 HE) as O. destruct (run_data true per var roi k0 k1 k2 HN HK e0 HE cs e0 e (proj1 O) H) as (O' & _).
  rewrite <- (unlocked_run roi per var e0 cs e c HR HE H).
  destruct (proper_dec roi c) as [HP|HP]; [destruct (unlocked e (stat_of c)) eqn:EU|].
  - left. split; auto. split; auto. destruct HP as (P1 & P2 & P3 & P4). apply (call_fine true per var roi k0 k1 k2 HR HK c e); auto.
  - right. split; [intros [_ X]; discriminate|]. apply (call_throws per var roi k0 k1 k2 c e HK O'). intros [_ X]. congruence.
  - right. split; [tauto|]. apply (call_throws per var roi k0 k1 k2 c e HK O'). tauto.
Qed.

Lemma session_safe : forall roi per var e0 cs, region roi -> ensemble true roi per var = Ok e0 ->
  Forall whole_call cs -> Forall (usable per roi) cs -> exists e o, session (try_add true) cs e0 = Some (e, o).
Proof.
  intros roi per var e0 cs HR HE HW HU.
  assert (G : forall cs done e, run true done e0 = Ok e -> Forall whole_call cs -> Forall (usable per roi) cs -> exists e' o, session (try_add true) cs e = Some (e', o)).
  { clear HW HU cs. induction cs as [|c cs IH]; intros dn e HD HW HU; [cbn; eauto|]. apply Forall_cons_iff in HW, HU. destruct HW as [W1 W2]. destruct HU as [U1 U2].
    pose proof (ensemble_outcome true c e) as HO. assert (MF : mask_fits true c) by (destruct c; cbn; auto). specialize (HO MF). cbn [session].
    destruct (accepted_or_refused roi per var e0 dn e c HR HE HD W1 U1) as [(_ & _ & e' & E)|(_ & E)]; rewrite E in HO; rewrite HO.
    - destruct (IH (dn ++ [c]) e') as (t & o & ES); auto; [|rewrite ES; eauto]. unfold run in *. clear -HD E. revert HD. generalize e0. induction dn as [|x dn IHd]; intros e1 HD.
      + cbn in *. inversion HD; subst. rewrite E. reflexivity.
      + cbn [app foldM] in *. destruct (add true e1 x) as [e2| | |]; try discriminate. cbn [bind] in *. apply IHd. exact HD.
    - destruct (IH dn e) as (t & o & ES); auto. rewrite ES. eauto. }
  apply (G cs [] e0); auto.
Qed.

Lemma unchecked_safe : forall roi per var e0 cs, region roi -> ensemble false roi per var = Ok e0 ->
  Forall whole_call cs -> Forall (usable per roi) cs -> Forall same_shapes cs -> Forall (same_rank roi) cs -> exists e, run false cs e0 = Ok e.
Proof.
  intros roi per var e0 cs HR HE HW HU HS HL. pose proof (region_nonneg _ HR) as HN. destruct (ensemble_inv _ _ _ _ _ HE) as (k0 & k1 & k2 & HK & _).
  pose proof (proj1 (ok0 false per var roi k0 k1 k2 HN HK e0 HE)) as O. clear HE. revert e0 O. unfold run.
  induction cs as [|c cs IH]; intros e O; [cbn; eauto|]. apply Forall_cons_iff in HW, HU, HS, HL. destruct HW, HU, HS, HL. cbn [foldM].
  destruct (call_fine false per var roi k0 k1 k2 HR HK c e) as [e' E]; auto; try discriminate. rewrite E, bind_Ok. apply IH; auto.
  apply (ok_after false per var roi k0 k1 k2 HR HK e c e' O E).
Qed.

(** Without assertions: a mask that is smaller than the image, and clusters that are. *)
Lemma small_mask_unchecked : exists f g m c ce,
  whole_call (CallS2 f g (Some (m, m))) /\ whole_call (CallW2c c ce f None Bresenham) /\
  same_rank [3] (CallS2 f g (Some (m, m))) /\ zero_one (CallS2 f g (Some (m, m))) /\
  fresh false [3] false true (CallS2 f g (Some (m, m))) = UB /\ fresh true [3] false true (CallS2 f g (Some (m, m))) = Throw /\
  fresh false [3] false true (CallW2c c ce f None Bresenham) = UB /\ fresh true [3] false true (CallW2c c ce f None Bresenham) = Throw.
Proof.
  exists (mkimg [3] [1%Qc; 0%Qc; 1%Qc]), (mkimg [3] [1%Qc; 0%Qc; 1%Qc]), (mkimg [1] [0]), (mkimg [1] [1]), (mkimg [3] [0; 0; 1]).
  repeat split; try (vm_compute; reflexivity); try (cbn; repeat constructor; lia); try (right; reflexivity).
  intros m [<-|[<-|[]]] x [<-|[]]; auto.
Qed.
