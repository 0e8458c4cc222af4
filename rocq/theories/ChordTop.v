(** * ChordTop: proofs of C150 *)

From Coq Require Import ZArith QArith Qcanon List Bool Lia.
From Verif Require Import Base BaseLemmas SpecCluster SpecDilate ClusterGeom Path SpecPath Ensemble SpecEnsemble SpecLineal SpecAxis SpecChord
  EnsembleSums EnsembleTop DerivedRelations AxisTop.
Import ListNotations.
Open Scope Z_scope.

Lemma count_split : forall (P Q : Z -> bool) l, lenZ (filter P l) = lenZ (filter (fun x => P x && Q x) l) + lenZ (filter (fun x => P x && negb (Q x)) l).
Proof.
  intros P Q l. induction l as [|x l IH]; [reflexivity|]. cbn [filter]. destruct (P x), (Q x); cbn [andb negb]; rewrite ?lenZ_cons; lia.
Qed.

Section Chord.
Variables (per : bool) (shape f : list Z) (a : nat).
Hypothesis HN : Forall (fun n => 1 <= n) shape.

Notation ph p i := (in_phase per shape f p (along (length shape) a i)).

Definition run_ (t p : Z) : bool := forallb (fun i => ph p i) (zrange 0 t).

Lemma straight_run : forall t p, 0 <= t -> straight per shape f a t p = run_ (t + 1) p.
Proof. intros t p H. unfold straight, run_. rewrite Z.min_l, Z.max_r by lia. reflexivity. Qed.

Lemma run_iff : forall t p, run_ t p = true <-> forall i, 0 <= i < t -> ph p i = true.
Proof. intros t p. unfold run_. rewrite forallb_forall. split; intros H i IN; apply H; [apply zrange_In; exact IN|apply zrange_In in IN; exact IN]. Qed.

Lemma run_next : forall t p, 0 <= t -> run_ (t + 1) p = run_ t p && ph p t.
Proof.
  intros t p H. apply eq_true_iff_eq. rewrite andb_true_iff, !run_iff. split.
  - intros X. split; [intros; apply X; lia|apply X; lia].
  - intros [X Y] i Hi. destruct (Z.eq_dec i t) as [->|]; auto. apply X. lia.
Qed.

(** Runs that end after [t] pixels. *)
Definition ends (t : Z) : Z := lenZ (filter (fun p => run_ t p && negb (ph p t)) (pixels shape)).

Lemma ends_difference : forall t, 0 <= t -> ends t = lenZ (filter (run_ t) (pixels shape)) - lenZ (filter (run_ (t + 1)) (pixels shape)).
Proof.
  intros t H. rewrite (count_split (run_ t) (fun p => ph p t)). unfold ends.
  rewrite (filter_ext (run_ (t + 1)) (fun p => run_ t p && ph p t)) by (intros; apply run_next; auto). lia.
Qed.

Lemma phase_pixel : forall p d, in_phase per shape f p d = true -> exists q, pixel shape q /\ movedb per shape (coords shape p) d (coords shape q) = true.
Proof.
  intros p d H. unfold in_phase in H. apply existsb_exists in H. destruct H as (q & IQ & HQ). apply andb_true_iff in HQ. exists q. unfold pixels in IQ. apply zrange_In in IQ. split; [exact IQ|tauto].
Qed.

Lemma HP : Forall (fun n => 0 < n) shape.
Proof. eapply Forall_impl; [|exact HN]; cbn beta; intros; lia. Qed.

Lemma back_one : forall p q s, pixel shape p -> pixel shape q -> movedb per shape (coords shape p) (along (length shape) a s) (coords shape q) = true ->
  movedb per shape (coords shape q) (along (length shape) a (- s)) (coords shape p) = true.
Proof.
  intros p q s Hp Hq H. rewrite along_opp. rewrite movedb_opp; auto; apply coords_inside; auto using HP.
Qed.

Lemma moved_injective : forall s p p' q, pixel shape p -> pixel shape p' -> pixel shape q ->
  movedb per shape (coords shape p) (along (length shape) a s) (coords shape q) = true ->
  movedb per shape (coords shape p') (along (length shape) a s) (coords shape q) = true -> p = p'.
Proof.
  intros s p p' q Hp Hp' Hq M M'. apply back_one in M, M'; auto. apply movedb_iff in M, M'. apply (coords_inj shape); auto using HP. eapply moved_functional; eauto.
Qed.

Lemma ends_shift : forall t, 1 <= t ->
  lenZ (filter (fun p => run_ (t + 1) p && negb (ph p (t + 1))) (pixels shape)) =
  lenZ (filter (fun q => (run_ t q && negb (ph q t)) && ph q (-1)) (pixels shape)).
Proof.
  intros t Ht. apply Z.le_antisymm.
  - apply (injected (fun p q => pixel shape p /\ pixel shape q /\ movedb per shape (coords shape p) (along (length shape) a 1) (coords shape q) = true)).
    + apply NoDup_filter, zrange_NoDup.
    + intros p IP. apply filter_In in IP. destruct IP as [IP H]. apply zrange_In in IP. apply andb_true_iff in H. destruct H as [H1 H2]. rewrite run_iff in H1.
      destruct (phase_pixel p (along (length shape) a 1)) as (q & Hq & M); [apply H1; lia|]. exists q. split; [|repeat split; auto; try apply IP; apply Hq].
      apply filter_In. split; [apply zrange_In; exact Hq|]. rewrite !andb_true_iff, run_iff. repeat split.
      * intros i Hi. rewrite (phase_then per shape f a 1 i p q HN M). apply H1. lia.
      * rewrite (phase_then per shape f a 1 t p q HN M). replace (1 + t) with (t + 1) by lia. exact H2.
      * rewrite (phase_then per shape f a 1 (-1) p q HN M). apply H1. lia.
    + intros p p' q _ _ (A & B & C) (A' & _ & C'). exact (moved_injective 1 p p' q A A' B C C').
  - apply (injected (fun q p => pixel shape q /\ pixel shape p /\ movedb per shape (coords shape q) (along (length shape) a (-1)) (coords shape p) = true)).
    + apply NoDup_filter, zrange_NoDup.
    + intros q IQ. apply filter_In in IQ. destruct IQ as [IQ H]. apply zrange_In in IQ. rewrite !andb_true_iff, run_iff in H. destruct H as [[H1 H2] H3].
      destruct (phase_pixel q (along (length shape) a (-1)) H3) as (p & Hp & M). exists p. split; [|repeat split; auto; try apply IQ; apply Hp].
      apply filter_In. split; [apply zrange_In; exact Hp|]. rewrite andb_true_iff, run_iff. split.
      * intros i Hi. rewrite (phase_then per shape f a (-1) i q p HN M). destruct (Z.eq_dec i 0) as [->|]; [exact H3|]. apply H1. lia.
      * rewrite (phase_then per shape f a (-1) (t + 1) q p HN M). replace (-1 + (t + 1)) with t by lia. exact H2.
    + intros p p' q _ _ (A & B & C) (A' & _ & C'). exact (moved_injective (-1) p p' q A A' B C C').
Qed.

Lemma chords_difference : forall t, 1 <= t ->
  chords per shape f a t = lenZ (filter (straight per shape f a (t - 1)) (pixels shape)) - 2 * lenZ (filter (straight per shape f a t) (pixels shape))
                           + lenZ (filter (straight per shape f a (t + 1)) (pixels shape)).
Proof.
  intros t Ht.
  rewrite (filter_ext (straight per shape f a (t - 1)) (run_ t)) by (intros p; rewrite straight_run by lia; f_equal; lia).
  rewrite (filter_ext (straight per shape f a t) (run_ (t + 1))) by (intros p; rewrite straight_run by lia; reflexivity).
  rewrite (filter_ext (straight per shape f a (t + 1)) (run_ (t + 1 + 1))) by (intros p; rewrite straight_run by lia; reflexivity).
  pose proof (ends_difference t ltac:(lia)) as E1. pose proof (ends_difference (t + 1) ltac:(lia)) as E2.
  unfold ends in E2. rewrite (ends_shift t Ht) in E2. unfold ends in E1. rewrite (count_split (fun p => run_ t p && negb (ph p t)) (fun p => ph p (-1))) in E1.
  unfold chords. rewrite (filter_ext (chord per shape f a t) (fun x => run_ t x && negb (ph x t) && negb (ph x (-1)))) by reflexivity. lia.
Qed.
End Chord.

Lemma L_chords : forall asrt per var roi shape f mode, shapes per roi shape -> is_image shape f -> coverable mode roi -> (exists n, In n roi /\ 1 < n) ->
  exists e, fresh asrt roi per var (CallL f mode) = Ok e /\
    forall r r' r'' a t, pixel roi r -> pixel roi r' -> pixel roi r'' -> (a < length roi)%nat -> 1 <= t ->
      offset roi r = along (length roi) a (t - 1) -> offset roi r' = along (length roi) a t -> offset roi r'' = along (length roi) a (t + 1) ->
      exists l l' l'', result_at e r = Exact l /\ result_at e r' = Exact l' /\ result_at e r'' = Exact l'' /\
        (l - l' - (l' - l'') = zq (chords per shape (i_vals f) a t) / zq (zprod shape))%Qc.
Proof.
  intros asrt per var roi shape f mode HS Hf HC HB. destruct (L_axis asrt per var roi shape f mode HS Hf HC HB) as (e & E & V). exists e. split; auto.
  assert (HN : Forall (fun n => 1 <= n) shape) by apply HS.
  intros r r' r'' a t Hr Hr' Hr'' Ha Ht O O' O''. rewrite (V r a (t - 1)), (V r' a t), (V r'' a (t + 1)) by auto. do 3 eexists. do 3 (split; [reflexivity|]).
  rewrite (chords_difference per shape (i_vals f) a HN t Ht). unfold straight_fraction. rewrite zq_plus, zq_sub, zq_mult. replace (zq 2) with (1 + 1)%Qc by (apply Qc_is_canon; reflexivity).
  unfold Qcdiv. ring.
Qed.

Lemma L_convex : forall asrt per var roi shape f mode, shapes per roi shape -> is_image shape f -> coverable mode roi -> (exists n, In n roi /\ 1 < n) ->
  exists e, fresh asrt roi per var (CallL f mode) = Ok e /\
    forall r r' r'' a t, pixel roi r -> pixel roi r' -> pixel roi r'' -> (a < length roi)%nat -> 1 <= t ->
      offset roi r = along (length roi) a (t - 1) -> offset roi r' = along (length roi) a t -> offset roi r'' = along (length roi) a (t + 1) ->
      exists l l' l'', result_at e r = Exact l /\ result_at e r' = Exact l' /\ result_at e r'' = Exact l'' /\ (l' - l'' <= l - l')%Qc.
Proof.
  intros asrt per var roi shape f mode HS Hf HC HB. destruct (L_chords asrt per var roi shape f mode HS Hf HC HB) as (e & E & V). exists e. split; auto.
  intros r r' r'' a t Hr Hr' Hr'' Ha Ht O O' O''. destruct (V r r' r'' a t Hr Hr' Hr'' Ha Ht O O' O'') as (l & l' & l'' & A & B & C & D). exists l, l', l''. do 3 (split; auto).
  assert (HN : Forall (fun n => 1 <= n) shape) by apply HS.
  assert (X : (0 <= l - l' - (l' - l''))%Qc).
  { rewrite D. replace 0%Qc with (0 / zq (zprod shape))%Qc by (unfold Qcdiv; ring). apply div_mono; [rewrite <- zq_0; apply zq_lt, len_pos; auto|]. rewrite <- zq_0. apply zq_le. unfold chords. apply lenZ_nonneg. }
  apply Qcle_minus_iff. exact X.
Qed.

Lemma L_slope : forall asrt per var roi shape f mode, shapes per roi shape -> is_image shape f -> coverable mode roi -> (exists n, In n roi /\ 1 < n) ->
  exists e, fresh asrt roi per var (CallL f mode) = Ok e /\
    forall r r' a t, pixel roi r -> pixel roi r' -> (a < length roi)%nat -> 1 <= t ->
      offset roi r = along (length roi) a (t - 1) -> offset roi r' = along (length roi) a t ->
      exists l l', result_at e r = Exact l /\ result_at e r' = Exact l' /\
        (l - l' = zq (lenZ (filter (exactly per shape (i_vals f) a t) (pixels shape))) / zq (zprod shape))%Qc.
Proof.
  intros asrt per var roi shape f mode HS Hf HC HB. destruct (L_axis asrt per var roi shape f mode HS Hf HC HB) as (e & E & V). exists e. split; auto.
  intros r r' a t Hr Hr' Ha Ht O O'. rewrite (V r a (t - 1)), (V r' a t) by auto. do 2 eexists. do 2 (split; [reflexivity|]). unfold straight_fraction.
  rewrite (filter_ext (straight per shape (i_vals f) a (t - 1)) (run_ per shape (i_vals f) a t)) by (intros p; rewrite straight_run by lia; f_equal; lia).
  rewrite (filter_ext (straight per shape (i_vals f) a t) (run_ per shape (i_vals f) a (t + 1))) by (intros p; rewrite straight_run by lia; reflexivity).
  pose proof (ends_difference per shape (i_vals f) a t ltac:(lia)) as D. unfold ends in D.
  rewrite (filter_ext (exactly per shape (i_vals f) a t) (fun p => run_ per shape (i_vals f) a t p && negb (in_phase per shape (i_vals f) p (along (length shape) a t)))) by reflexivity.
  rewrite D, zq_sub. unfold Qcdiv. ring.
Qed.
