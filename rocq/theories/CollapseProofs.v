(** * CollapseProofs: labels to center pixels *)

From Coq Require Import ZArith List Bool Reals Lra Lia Permutation Sorted.
From Flocq Require Import Core.
From Verif Require Import Base SpecCluster Cluster ClusterGeom ClusterInv Center SpecCenter CenterProofs CenterTop CenterLabels SpecEnsemble Collapse SpecCollapse.
Import ListNotations.
Open Scope Z_scope.

(** ** Rounding and clipping *)
Lemma nearest_near : forall c, (Rabs (c - IZR (ZnearestE c)) <= / 2)%R.
Proof. intro c. pose proof (Znearest_half (fun x => negb (Z.even x)) c) as H. exact H. Qed.

Lemma nearest_tie : forall c, (Rabs (c - IZR (ZnearestE c)) = / 2)%R -> Z.even (ZnearestE c) = true.
Proof.
  intros c H. unfold Znearest in *.
  assert (F := conj (Zfloor_lb c) (Zfloor_ub c)). destruct F as [F1 F2].
  destruct (Rcompare_spec (c - IZR (Zfloor c)) (/ 2)) as [L|L|L].
  - rewrite Rabs_pos_eq in H by lra. lra.
  - assert (C : Zceil c = Zfloor c + 1). { apply Zceil_floor_neq. intro E. rewrite E in L. lra. }
    destruct (Z.even (Zfloor c)) eqn:E; cbn [negb] in *; [exact E|].
    rewrite C, Z.even_add, E. reflexivity.
  - assert (C : Zceil c = Zfloor c + 1). { apply Zceil_floor_neq. intro E. rewrite E in L. lra. }
    rewrite C, plus_IZR in H. rewrite Rabs_left in H by lra. lra.
Qed.

Lemma clip_closest : forall n c, 1 <= n -> closest n c (clip n (ZnearestE c)).
Proof.
  intros n c N. set (z := ZnearestE c). pose proof (nearest_near c) as HN. pose proof (nearest_tie c) as HT. fold z in HN, HT.
  unfold clip. split; [lia|]. intros y HY NE.
  assert (A : forall a b, (a + 1 <= b)%Z -> (IZR a + 1 <= IZR b)%R) by (intros a b AB; apply IZR_le in AB; rewrite plus_IZR in AB; lra).
  apply Rabs_le_inv in HN.
  destruct (Z_lt_le_dec z 0) as [Z0|Z0].
  - replace (Z.min (Z.max z 0) (n - 1)) with 0 in * by lia. left.
    pose proof (A z 0 ltac:(lia)). pose proof (A 0 y ltac:(lia)). rewrite (Rabs_left (c - 0)) by lra. rewrite Rabs_left by lra. lra.
  - destruct (Z_lt_le_dec (n - 1) z) as [Z1|Z1].
    + replace (Z.min (Z.max z 0) (n - 1)) with (n - 1) in * by lia. left.
      pose proof (A (n - 1) z ltac:(lia)). pose proof (A y (n - 1) ltac:(lia)). rewrite !Rabs_pos_eq by lra. lra.
    + replace (Z.min (Z.max z 0) (n - 1)) with z in * by lia.
      assert (D : (/ 2 <= Rabs (c - IZR y))%R).
      { destruct (Z_lt_le_dec y z) as [L|L]; [pose proof (A y z ltac:(lia)); rewrite Rabs_pos_eq by lra; lra|].
        pose proof (A z y ltac:(lia)). rewrite Rabs_left1 by lra. lra. }
      assert (B : (Rabs (c - IZR z) <= / 2)%R) by (apply Rabs_le; lra).
      destruct (Rle_lt_or_eq_dec _ _ B) as [L|E]; [left; lra|].
      destruct (Rle_lt_or_eq_dec _ _ D) as [L'|E']; [left; lra|right]. split; [lra|auto].
Qed.

Lemma closest_unique : forall n c a b, closest n c a -> closest n c b -> a = b.
Proof.
  intros n c a b [A HA] [B HB]. destruct (Z.eq_dec a b) as [E|NE]; auto. exfalso.
  destruct (HA b B ltac:(auto)) as [L|[E1 E2]]; destruct (HB a A NE) as [L'|[E1' E2']]; try lra.
  assert (P : a < b \/ b < a) by lia.
  assert (K : forall x y, x < y -> Z.even x = true -> Z.even y = true -> closest n c x -> 0 <= y < n -> Rabs (c - IZR x) = Rabs (c - IZR y) -> False).
  { intros x y XY EX EY [X HX] Y EQ.
    assert (S : Z.even (x + 1) = false) by (rewrite Z.even_add, EX; reflexivity).
    assert (y <> x + 1) by (intro; subst; congruence).
    destruct (HX (x + 1) ltac:(lia) ltac:(lia)) as [Q|[Q _]];
      rewrite plus_IZR in Q; assert (T1 : (IZR x + 2 <= IZR y)%R) by (rewrite <- plus_IZR; apply IZR_le; lia);
      revert Q EQ; unfold Rabs; repeat destruct Rcase_abs; intros; lra. }
  destruct P as [P|P]; [eapply (K a b); eauto|eapply (K b a); eauto]; split; auto.
Qed.

(** ** Rows of positions *)
Lemma within_inside : forall shape x, within_shape shape x = true <-> inside shape x.
Proof.
  induction shape as [|n s IH]; destruct x as [|z x]; cbn; try (split; [discriminate|tauto]); [tauto|].
  rewrite !andb_true_iff, IH. split; intros; [|]; try lia; intuition lia.
Qed.

Lemma clip_inside : forall shape x, Forall (fun n => 1 <= n) shape -> length x = length shape -> inside shape (clip_all shape x).
Proof.
  induction shape as [|n s IH]; destruct x as [|z x]; cbn; intros F L; try discriminate; auto.
  inversion F; subst. split; [unfold clip; lia|apply IH; auto].
Qed.

Lemma clip_nth : forall shape x k, length x = length shape -> (k < length shape)%nat ->
  nth k (clip_all shape x) 0 = clip (nth k shape 0) (nth k x 0).
Proof.
  induction shape as [|n s IH]; destruct x as [|z x]; cbn; intros k L K; try discriminate; try lia.
  destruct k; auto. apply IH; lia.
Qed.

Lemma rint_row : forall row, (forall k, (k < length row)%nat -> exists c, at_axis row k c) ->
  exists x, mapM rint row = Ok x /\ length x = length row /\ forall k c, at_axis row k c -> nth k x 0 = ZnearestE c.
Proof.
  induction row as [|a row IH]; intro H.
  - exists []. repeat split. intros [|k] c; discriminate.
  - destruct (H 0%nat ltac:(cbn; lia)) as [c C]. cbv in C. injection C as ->.
    destruct IH as (x & E & L & V); [intros k K; apply (H (S k)); cbn; lia|].
    exists (ZnearestE c :: x). cbn [mapM rint bind]. rewrite E. repeat split; [cbn; lia|].
    intros [|k] c' C; [injection C as ->; reflexivity|]. cbn. apply V. exact C.
Qed.

Section Image.
Variables (asrt per : bool) (shape labels : list Z).
Hypothesis HS : shape <> [].
Hypothesis HF : Forall (fun n => 1 <= n) shape.
Hypothesis HL : lenZ labels = zprod shape.

Lemma positive : Forall (fun n => 0 < n) shape.
Proof. eapply Forall_impl; [|exact HF]. cbn. intros; lia. Qed.

(** The center of a label that occurs is a number along every axis. *)
Lemma row_numbers : forall v ps, occurs shape labels v -> carries shape labels v ps ->
  exists row, center (map IZR shape) (positions_of shape ps) per = Ok row /\ length row = length shape /\
    forall k, (k < length shape)%nat -> exists c, at_axis row k c.
Proof.
  intros v ps (p & P & V) [ND C].
  assert (N : positions_of shape ps <> []).
  { intro E. apply map_eq_nil in E. subst. apply (proj2 (C p)). split; auto. }
  assert (LEN : (0 < length shape)%nat) by (destruct shape; [congruence|cbn; lia]).
  assert (A : forall k, (k < length shape)%nat -> exists row c, center (map IZR shape) (positions_of shape ps) per = Ok row /\ length row = length shape /\ at_axis row k c).
  { intros k K. assert (K' : (k < length (map IZR shape))%nat) by now rewrite map_length. destruct per.
    - destruct (center_circular (map IZR shape) (positions_of shape ps) k (positions_fit _ _) N K') as (r & c & E & L & AX & _).
      + unfold side. change 0%R with (IZR 0). rewrite map_nth. apply IZR_lt.
        pose proof positive as PS. rewrite Forall_forall in PS. apply PS, nth_In. exact K.
      + rewrite map_length in L. eauto.
    - destruct (center_mean (map IZR shape) (positions_of shape ps) k (positions_fit _ _) N K') as (r & c & E & L & AX & _).
      rewrite map_length in L. eauto. }
  destruct (A 0%nat LEN) as (row & c0 & E & L & _). exists row. split; auto. split; auto.
  intros k K. destruct (A k K) as (r & c & E' & _ & AX). assert (r = row) by congruence. subst. eauto.
Qed.

Lemma index_row : forall v ps, occurs shape labels v -> carries shape labels v ps ->
  exists row i, center (map IZR shape) (positions_of shape ps) per = Ok row /\ index_of shape row = Ok i /\ centre_pixel per shape labels v i.
Proof.
  intros v ps O C. destruct (row_numbers v ps O C) as (row & E & L & A).
  destruct (rint_row row) as (x & EX & LX & VX); [rewrite L; exact A|].
  pose proof (clip_inside shape x HF ltac:(congruence)) as IN.
  exists row, (ravel shape (clip_all shape x)). split; auto. unfold index_of. rewrite EX. cbn [bind]. unfold ravel_multi_index.
  rewrite (proj2 (within_inside _ _) IN), (dot_strides _ _ IN). split; auto.
  split; [apply ravel_range; exact IN|]. intros k K. rewrite (coords_ravel _ _ IN), clip_nth by congruence.
  destruct (A k K) as (c & AX). exists c. split.
  - intros ps' C'. exists row. split; auto. rewrite <- E. apply center_perm, Permutation_map. eapply carries_perm; eauto.
  - rewrite (VX k c AX). apply clip_closest. rewrite Forall_forall in HF. apply HF, nth_In. exact K.
Qed.

Lemma centre_unique : forall v p q, occurs shape labels v -> centre_pixel per shape labels v p -> centre_pixel per shape labels v q -> p = q.
Proof.
  intros v p q O [P HP] [Q HQ]. apply (coords_inj shape); auto using positive.
  apply nth_ext with (d := 0) (d' := 0); [now rewrite !coords_length|]. rewrite coords_length. intros k K.
  destruct (HP k K) as (c & C & X). destruct (HQ k K) as (c' & C' & X').
  pose proof (hits_carries shape labels v HL) as H. destruct (C _ H) as (r & E & A). destruct (C' _ H) as (r' & E' & A').
  assert (c = c') by (unfold at_axis in *; congruence). subst c'. eapply closest_unique; eauto.
Qed.

Lemma centre_exists : forall v, occurs shape labels v -> exists p, centre_pixel per shape labels v p.
Proof. intros v O. destruct (index_row v _ O (hits_carries shape labels v HL)) as (row & i & _ & _ & X). eauto. Qed.

(** ** Names *)
Lemma occurs_In : forall v, occurs shape labels v <-> In v labels.
Proof.
  intro v. unfold occurs, pixel, zn. rewrite <- HL. unfold lenZ. split.
  - intros (p & P & <-). apply nth_In. lia.
  - intro H. destruct (In_nth _ _ 0 H) as (i & I & E). exists (Z.of_nat i). rewrite Nat2Z.id. split; [lia|auto].
Qed.

Lemma names_named : forall v, In v (names_of labels) <-> named shape labels v.
Proof.
  intro v. unfold names_of, named. pose proof (unique_sorted labels) as S.
  assert (U : forall y, In y (unique labels) <-> occurs shape labels y) by (intro y; rewrite unique_In; symmetry; apply occurs_In).
  destruct (unique labels) as [|m t]; cbn [tl].
  - split; [intros []|]. intros [O _]. apply U in O. exact O.
  - inversion S as [|? ? S1 S2]; subst. rewrite Forall_forall in S2. split.
    + intro H. split; [apply U; now right|]. exists m. split; [apply U; now left|auto].
    + intros [O (u & OU & LT)]. apply U in O. destruct O as [<-|O]; auto. apply U in OU. destruct OU as [<-|OU]; [lia|]. apply S2 in OU. lia.
Qed.

Lemma names_sorted : StronglySorted Z.lt (names_of labels).
Proof. unfold names_of. pose proof (unique_sorted labels) as S. destruct S; cbn; [constructor|auto]. Qed.

End Image.

(** ** Assignment *)
Lemma zn_upd : forall (l : list Z) i v p, 0 <= i < lenZ l -> 0 <= p -> zn (upd (Z.to_nat i) v l) p = if p =? i then v else zn l p.
Proof.
  intros l i v p I P. unfold zn, lenZ in *. destruct (p =? i) eqn:E.
  - apply Z.eqb_eq in E. subst. assert (L : (Z.to_nat i < length l)%nat) by lia. revert L. generalize (Z.to_nat i). clear.
    induction l as [|a l IH]; cbn; intros n L; [lia|]. destruct n; cbn; auto. apply IH. lia.
  - apply Z.eqb_neq in E. assert (N : Z.to_nat p <> Z.to_nat i) by lia. revert N. generalize (Z.to_nat p) (Z.to_nat i). clear.
    induction l as [|a l IH]; cbn; intros n m N; [now destruct m|]. destruct m as [|m], n as [|n]; cbn; try congruence. apply IH. congruence.
Qed.

Lemma len_upd : forall (l : list Z) n v, lenZ (upd n v l) = lenZ l.
Proof. intros l. unfold lenZ. induction l; destruct n; cbn; intros; auto. specialize (IHl n v). lia. Qed.

Lemma assign_all : forall index names c, StronglySorted Z.lt names -> length index = length names ->
  (forall i, In i index -> 0 <= i < lenZ c) ->
  exists c', assign c index names = Ok c' /\ lenZ c' = lenZ c /\
    forall p, 0 <= p < lenZ c ->
      (forall v, In (p, v) (combine index names) -> (forall w, In (p, w) (combine index names) -> w <= v) -> zn c' p = v) /\
      ((forall v, ~ In (p, v) (combine index names)) -> zn c' p = zn c p).
Proof.
  induction index as [|i index IH]; intros [|v names] c S L B; try discriminate.
  - exists c. repeat split; auto. intros v [].
  - inversion S as [|? ? S1 S2]; subst. pose proof (B i (or_introl eq_refl)) as BI.
    destruct (IH names (upd (Z.to_nat i) v c)) as (c' & E & LC & A); auto.
    { intros j J. rewrite len_upd. apply B. now right. }
    rewrite len_upd in *. exists c'. split.
    { unfold assign in *. cbn [combine foldM fst snd]. unfold vset. replace ((i <? 0) || (lenZ c <=? i)) with false by (symmetry; apply orb_false_iff; lia). cbn [bind]. exact E. }
    split; auto. intros p P. destruct (A p P) as [A1 A2]. rewrite zn_upd in A2 by (auto; lia). rewrite Forall_forall in S2.
    assert (DEC : (exists w, In (p, w) (combine index names)) \/ (forall w, ~ In (p, w) (combine index names))).
    { clear. induction (combine index names) as [|[a b] t [[w W]|N]].
      - right. intros w [].
      - left. exists w. now right.
      - destruct (Z.eq_dec a p) as [->|NE]; [left; exists b; now left|right]. intros w [E|I]; [congruence|eapply N; eauto]. }
    cbn [combine]. split.
    + intros w [E'|I] M.
      * injection E' as -> ->. destruct DEC as [[u U]|N].
        -- pose proof (M u (or_intror U)). pose proof (S2 u (in_combine_r _ _ _ _ U)). lia.
        -- rewrite (A2 N). now rewrite Z.eqb_refl.
      * apply A1; auto. intros u U. apply M. now right.
    + intros N. rewrite A2; [|intros w W; eapply N; right; eauto]. destruct (p =? i) eqn:E'; auto. apply Z.eqb_eq in E'. subst. exfalso. eapply N. now left.
Qed.

(** ** The whole *)
Section Whole.
Variables (asrt per : bool) (shape labels : list Z).
Hypothesis HS : shape <> [].
Hypothesis HF : Forall (fun n => 1 <= n) shape.
Hypothesis HL : lenZ labels = zprod shape.

Lemma zn_repeat : forall n p, zn (repeat 0 n) p = 0.
Proof. intros n p. unfold zn. generalize (Z.to_nat p). induction n as [|n IH]; intros [|m]; cbn; auto. Qed.

Lemma collapse_ok : exists ce, collapse asrt shape labels per = Ok ce /\ lenZ ce = zprod shape /\
  forall p, pixel shape p ->
    (forall v, named shape labels v -> centre_pixel per shape labels v p ->
       (forall w, named shape labels w -> centre_pixel per shape labels w p -> w <= v) -> zn ce p = v) /\
    ((forall v, named shape labels v -> ~ centre_pixel per shape labels v p) -> zn ce p = 0).
Proof.
  unfold collapse. destruct (labels_centers_ok asrt shape labels (names_of labels) per HS HL) as (rows & E & F). rewrite E. cbn [bind].
  assert (NM : forall v, In v (names_of labels) <-> named shape labels v) by (apply names_named; auto).
  assert (I : exists index, mapM (index_of shape) rows = Ok index /\ Forall2 (fun v i => centre_pixel per shape labels v i) (names_of labels) index).
  { assert (O : forall v, In v (names_of labels) -> occurs shape labels v) by (intros v V; apply NM in V; apply V).
    clear E NM. induction F as [|v row ns rows R F IH]; [exists []; split; [reflexivity|constructor]|].
    destruct IH as (index & E & IX); [intros; apply O; now right|].
    pose proof (hits_carries shape labels v HL) as H.
    destruct (index_row per shape labels HS HF HL v _ (O v (or_introl eq_refl)) H) as (row' & i & ER & EI & C).
    assert (row' = row) by (specialize (R _ H); congruence). subst row'.
    exists (i :: index). cbn [mapM]. rewrite EI. cbn [bind]. rewrite E. split; [reflexivity|constructor; auto]. }
  destruct I as (index & EI & IX). rewrite EI. cbn [bind].
  assert (LI : length index = length (names_of labels)) by (clear -IX; induction IX; cbn; auto).
  assert (BI : forall i, In i index -> 0 <= i < lenZ (repeat 0 (length labels))).
  { intros i H. unfold lenZ. rewrite repeat_length. fold (lenZ labels). rewrite HL. clear -IX H. induction IX as [|v j ns index C IX IH]; [destruct H|]. destruct H as [<-|H]; [apply C|auto]. }
  destruct (assign_all index (names_of labels) (repeat 0 (length labels)) (names_sorted labels) LI BI) as (ce & EC & LC & A).
  assert (LR : lenZ (repeat 0 (length labels)) = zprod shape) by (unfold lenZ; rewrite repeat_length; exact HL).
  exists ce. split; auto. split; [congruence|]. intros p P. destruct (A p ltac:(rewrite LR; exact P)) as [A1 A2].
  assert (K : forall v, In (p, v) (combine index (names_of labels)) <-> named shape labels v /\ centre_pixel per shape labels v p).
  { intro v. split.
    - intro H. assert (V : In v (names_of labels)) by (eapply in_combine_r; eauto). split; [apply NM; auto|].
      clear -IX H. induction IX as [|u j ns index C IX IH]; cbn in H; [destruct H|]. destruct H as [H|H]; [injection H as -> ->; auto|auto].
    - intros [N C]. pose proof N as [O _]. apply NM in N.
      assert (exists q, In (q, v) (combine index (names_of labels)) /\ centre_pixel per shape labels v q) as (q & Q & CQ).
      { clear -IX N. induction IX as [|u j ns index C IX IH]; [destruct N|]. destruct N as [<-|N]; [exists j; split; [now left|auto]|].
        destruct (IH N) as (q & Q & CQ). exists q. split; [now right|auto]. }
      rewrite (centre_unique per shape labels HF HL v p q O C CQ). exact Q. }
  split.
  - intros v N C M. apply A1; [apply K; auto|]. intros w W. apply K in W. apply M; apply W.
  - intros N. rewrite A2; [apply zn_repeat|]. intros v V. apply K in V. apply (N v); apply V.
Qed.

Lemma collapse_centres : forall v, occurs shape labels v -> exists! p, centre_pixel per shape labels v p.
Proof.
  intros v O. destruct (centre_exists per shape labels HS HF HL v O) as (p & C). exists p. split; auto.
  intros q Q. eapply centre_unique; eauto.
Qed.

End Whole.
