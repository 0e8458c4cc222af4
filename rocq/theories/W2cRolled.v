(** * W2cRolled: W2c of a rolled image, for every region of interest (proofs only) *)

From Coq Require Import ZArith QArith Qcanon List Bool Lia.
From Verif Require Import Base BaseLemmas Cluster SpecCluster ClusterGeom ClusterMain SpecDilate SpecPath Path Array3 DilateTop Ensemble SpecEnsemble EnsembleSums EnsembleTop EnsembleL EnsembleW2c SpecAlgebra SpecSymmetry
  DerivedCluster DerivedDilate DerivedEnsemble DerivedLineal SpecMoved PathSym W2cLaws SpecLinealMoved LinealMoved LinealMovedTop SpecW2cSlide W2cSlide W2cLawsAny.
Import ListNotations.
Open Scope Z_scope.

Lemma rolls_shift : forall roi shape d x p p' q q', shapes true roi shape -> length d = length shape -> rolls d shape p p' -> rolls d shape q q' ->
  movedb true (three shape) (coords (three shape) p) x (coords (three shape) q) = movedb true (three shape) (coords (three shape) p') x (coords (three shape) q').
Proof.
  intros roi shape d x p p' q q' HS Hd (Pp & Pp' & Mp) (Pq & Pq' & Mq).
  assert (HP : Forall (fun n => 0 < n) shape) by (apply image_pos; apply HS). destruct HS as (HL & H3 & HK & HN & HF).
  apply moved_lift in Mp; auto. apply moved_lift in Mq; auto. rewrite <- !coords_three in Mp, Mq by auto.
  assert (HI : forall p, pixel shape p -> inside (three shape) (coords (three shape) p)) by (intros; apply coords_inside; auto using pos_three, pixel_three).
  apply bool_iff. rewrite !movedb_iff. split; intros M.
  - eapply moved_commute; eauto.
  - apply moved_sym in Mp; auto. apply moved_sym in Mq; auto. eapply moved_commute; eauto.
Qed.

Lemma matching3 : forall roi shape T, shapes true roi shape -> matching shape shape T -> matching (three shape) (three shape) T.
Proof.
  intros roi shape T (HL & H3 & HK & HN & HF) H.
  assert (E : zprod (three shape) = zprod shape) by (destruct shape as [|a [|b [|c [|x s]]]]; cbn [three zprod]; try reflexivity; lia).
  unfold matching, pixel in *. rewrite E. exact H.
Qed.

Lemma due_rolled : forall roi shape d cl cl' ce ce' fm fm' paths r (F F' : list Z -> Z -> Qc), shapes true roi shape -> length d = length shape ->
  carried (rolls d shape) cl cl' -> carried (rolls d shape) ce ce' -> carried (rolls d shape) fm fm' ->
  (forall x p p', rolls d shape p p' -> F x p = F' x p') ->
  sum_over (counted true roi shape cl ce fm paths r) (fun w => F (snd (fst w)) (snd w)) = sum_over (counted true roi shape cl' ce' fm' paths r) (fun w => F' (snd (fst w)) (snd w)).
Proof.
  intros roi shape d cl cl' ce ce' fm fm' paths r F F' HS Hd Ccl Cce Cfm HF.
  assert (HT : matching shape shape (rolls d shape)) by (apply rolls_matching; auto; intros; apply image_pos; apply HS).
  pose proof (matching3 _ _ _ HS HT) as HT3.
  unfold counted. rewrite !sum_filter, !sum_prod. apply sum_ext. intros ab _. rewrite !sum_filter.
  apply (sum_pixels_moved shape shape (rolls d shape)); auto. intros p p' Hp. cbn [fst snd].
  unfold cluster_centre. rewrite (carried_zn _ _ _ Ccl _ _ Hp), (carried_zn _ _ _ Cce _ _ Hp).
  rewrite (phase_moved true (three shape) (three shape) (rolls d shape) fm fm' p p' (snd ab) (snd ab) HT3 Cfm).
  - rewrite (HF _ _ _ Hp). reflexivity.
  - intros q q' Hq. apply (rolls_shift roi shape d); auto.
Qed.

Lemma roll_anywhere : forall asrt var roi shape d cl ce f m cl' ce' f' m' mode, shapes true roi shape -> length d = length shape ->
  carried_walk (rolls d shape) shape shape (CallW2c cl ce f m mode) (CallW2c cl' ce' f' m' mode) -> walkable mode roi ->
  let c := fresh asrt roi true var (CallW2c cl ce f m mode) in
  let c' := fresh asrt roi true var (CallW2c cl' ce' f' m' mode) in
  (c = UB /\ c' = UB) \/
  exists e e', c = Ok e /\ c' = Ok e' /\ forall t, pixel roi t -> first_at e t = first_at e' t /\ norm_at e t = norm_at e' t /\ result_at e t = result_at e' t.
Proof.
  intros asrt var roi shape d cl ce f m cl' ce' f' m' mode HS Hd HC HW. cbv zeta.
  assert (HT : matching shape shape (rolls d shape)) by (apply rolls_matching; auto; intros; apply image_pos; apply HS).
  pose proof (matching3 _ _ _ HS HT) as HT3.
  destruct HC as ((Icl & Icl' & Ccl) & (Ice & Ice' & Cce) & (If & If' & Cf) & Cm & _).
  assert (CM : carried_mask (rolls d shape) shape shape (mask1 f m) (mask1 f' m')).
  { destruct m, m'; cbn [carried_option mask1] in *; try contradiction; auto. destruct If as (-> & _), If' as (-> & _). apply carried_zeros; try apply HS. apply HT. }
  destruct CM as (_ & _ & Cfm).
  assert (Hm : mask_of shape m /\ mask_of shape m').
  { destruct m, m'; cbn [carried_option mask_of] in *; try contradiction; auto. destruct Cm as (A & B & _). auto. }
  destruct (W2c_anywhere asrt true var roi shape mode HS HW) as (paths & HL & H).
  pose proof (H cl ce f m Icl Ice If (proj1 Hm)) as H1. pose proof (H cl' ce' f' m' Icl' Ice' If' (proj2 Hm)) as H2. cbv zeta in H1, H2. clear H.
  set (due := counted true roi shape (i_vals cl) (i_vals ce) (i_vals (mask1 f m)) paths) in *.
  set (due' := counted true roi shape (i_vals cl') (i_vals ce') (i_vals (mask1 f' m')) paths) in *.
  assert (N : forall r, lenZ (due r) = lenZ (due' r)).
  { intros r. apply zq_inj. rewrite <- !sum_one. apply (due_rolled roi shape d _ _ _ _ _ _ paths r (fun _ _ => 1%Qc) (fun _ _ => 1%Qc)); auto. }
  assert (V : forall r, sum_over (due r) (fun w => value_at true (three shape) (i_vals f) (snd w) (snd (fst w))) = sum_over (due' r) (fun w => value_at true (three shape) (i_vals f') (snd w) (snd (fst w)))).
  { intros r. apply (due_rolled roi shape d _ _ _ _ _ _ paths r (fun x p => value_at true (three shape) (i_vals f) p x) (fun x p => value_at true (three shape) (i_vals f') p x)); auto.
    intros x p p' Hp. symmetry. apply (value_moved true (three shape) (three shape) (rolls d shape)); auto. intros q q' Hq. apply (rolls_shift roi shape d); auto. }
  assert (EL : lands roi due = lands roi due').
  { unfold lands. induction (zrange 0 (zprod roi)) as [|r l IH]; [reflexivity|]. cbn [forallb]. rewrite IH. f_equal.
    specialize (N r). destruct (due r), (due' r); try reflexivity; unfold lenZ in N; cbn [length] in N; lia. }
  rewrite <- EL in H2. destruct (lands roi due); [|left; auto]. right.
  destruct H1 as (e & E & W), H2 as (e' & E' & W'). exists e, e'. split; [exact E|]. split; [exact E'|]. intros t Ht.
  destruct (W t Ht) as (A & B & C), (W' t Ht) as (A' & B' & C'). rewrite C, C', B, B', A, A'. unfold src.
  destruct (_ && _); [rewrite N, V|]; auto.
Qed.
