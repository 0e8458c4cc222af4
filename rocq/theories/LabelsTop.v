(** * LabelsTop: lemmas in the form of the property statements. *)

From Coq Require Import ZArith List Bool Lia Sorted.
From Verif Require Import Base BaseLemmas Cluster ClusterInv ClusterRun Labels SpecLabels LabelsProofs.
Import ListNotations.
Open Scope Z_scope.

Lemma table_flat : forall rows, table rows = flat_rows rows.
Proof. induction rows as [|[a b] rows IH]; auto. cbn [table]. rewrite IH. auto. Qed.

Lemma lookup_first_row : forall rows k v, lookup rows k = Some v <-> first_row rows k v.
Proof.
  unfold first_row. induction rows as [|[k' v'] rows IH]; intros k v; cbn [lookup].
  - split; [discriminate|]. intros ([|] & ? & X & _); discriminate.
  - destruct (k =? k') eqn:E.
    + assert (k = k') by lia. subst. split.
      * intros X. injection X as ->. exists [], rows. split; auto.
      * intros ([|[a b] bf] & af & X & N); cbn [app] in X; [congruence|].
        injection X as -> -> X. exfalso. apply (N b). simpl; auto.
    + rewrite IH. split.
      * intros (bf & af & -> & N). exists ((k', v') :: bf), af. split; auto.
        intros w [X|X]; [injection X; lia|eapply N; eauto].
      * intros ([|[a b] bf] & af & X & N); cbn [app] in X; [injection X; lia|].
        injection X as -> -> X. exists bf, af. split; auto. intros w Hw. apply (N w). simpl; auto.
Qed.

Lemma lookup_no_row : forall rows k, lookup rows k = None <-> forall w, ~ In (k, w) rows.
Proof.
  induction rows as [|[k' v'] rows IH]; intros k; cbn [lookup In]; [split; [auto|auto]|].
  destruct (k =? k') eqn:E.
  - split; [discriminate|]. intros H. exfalso. apply (H v'). left. f_equal. lia.
  - rewrite IH. split.
    + intros H w [X|X]; [injection X; lia|eapply H; eauto].
    + intros H w X. apply (H w). auto.
Qed.

Lemma rename_spec : forall asrt labels rows,
  (forall l, In l labels -> exists w, In (l, w) rows) ->
  exists ret, labels_rename asrt labels (lenZ rows) 2 (table rows) = Ok ret /\ lenZ ret = lenZ labels /\
    forall p, 0 <= p < lenZ labels -> first_row rows (zn labels p) (zn ret p).
Proof.
  intros asrt labels rows H. rewrite table_flat, labels_rename_ok.
  assert (S : forall l, In l labels -> exists v, lookup rows l = Some v).
  { intros l Hl. destruct (lookup rows l) eqn:E; eauto. rewrite lookup_no_row in E. destruct (H l Hl) as (w & Hw).
    exfalso. eapply E; eauto. }
  assert (forallb (fun l => isSome (lookup rows l)) labels = true) as ->.
  { apply forallb_forall. intros l Hl. destruct (S l Hl) as (v & ->). auto. }
  rewrite andb_false_r. eexists. split; [reflexivity|]. split; [unfold lenZ; now rewrite map_length|].
  intros p Hp. rewrite zn_map by auto. apply lookup_first_row. destruct (S (zn labels p)) as (v & E); [apply zn_In; auto|].
  rewrite E. auto.
Qed.

Lemma rename_missing : forall labels rows l, In l labels -> (forall w, ~ In (l, w) rows) ->
  labels_rename true labels (lenZ rows) 2 (table rows) = Throw /\
  exists ret, labels_rename false labels (lenZ rows) 2 (table rows) = Ok ret /\ lenZ ret = lenZ labels /\
    forall p, 0 <= p < lenZ labels ->
      (forall v, first_row rows (zn labels p) v -> zn ret p = v) /\
      ((forall w, ~ In (zn labels p, w) rows) -> zn ret p = 0).
Proof.
  intros labels rows l Hl Hm. rewrite table_flat, !labels_rename_ok. split.
  - assert (forallb (fun l => isSome (lookup rows l)) labels = false) as ->; auto.
    destruct (forallb _ labels) eqn:E; auto. rewrite forallb_forall in E. specialize (E l Hl).
    rewrite <- lookup_no_row in Hm. rewrite Hm in E. discriminate.
  - cbn [andb]. eexists. split; [reflexivity|]. split; [unfold lenZ; now rewrite map_length|].
    intros p Hp. rewrite zn_map by auto. split.
    + intros v Hv. rewrite <- lookup_first_row in Hv. rewrite Hv. auto.
    + intros Hn. rewrite <- lookup_no_row in Hn. rewrite Hn. auto.
Qed.

Lemma rename_wrong_width : forall labels nr nc data, nc <> 2 -> labels_rename true labels nr nc data = Throw.
Proof. intros. unfold labels_rename. replace (nc =? 2) with false by lia. reflexivity. Qed.

Lemma map_spec : forall a b, lenZ a = lenZ b ->
  exists rows, labels_map a b = Ok rows /\ StronglySorted Z.lt (map fst rows) /\
    forall k v, In (k, v) rows <-> exists i, first_at a k i /\ zn b i = v.
Proof.
  intros a b H. destruct (labels_map_ok a b) as (m & E & HS & HM); [lia|]. exists m. split; auto. split; [exact HS|].
  intros k v. rewrite <- mfind_In by auto. apply HM.
Qed.

Lemma map_rename : forall asrt a b, lenZ a = lenZ b ->
  (forall p q, 0 <= p < lenZ a -> 0 <= q < lenZ a -> zn a p = zn a q -> zn b p = zn b q) ->
  exists rows, labels_map a b = Ok rows /\
    labels_rename asrt a (lenZ rows) 2 (table rows) = Ok b.
Proof.
  intros asrt a b HL HF. destruct (map_spec a b HL) as (rows & E & HS & HR). exists rows. split; auto.
  assert (HA : forall l, In l a -> exists w, In (l, w) rows).
  { intros l Hl. destruct (exists_first_at a l Hl) as (i & Hi). exists (zn b i). apply HR. eauto. }
  destruct (rename_spec asrt a rows HA) as (ret & E' & L & R). rewrite E'. f_equal.
  apply list_ext_zn; [unfold lenZ in *; lia|].
  intros p Hp. destruct (R p ltac:(lia)) as (bf & af & Er & _).
  assert (Hin : In (zn a p, zn ret p) rows) by (rewrite Er; apply in_or_app; simpl; auto).
  apply HR in Hin. destruct Hin as (i & (Hi & Ei & _) & Eb). rewrite <- Eb. apply HF; auto; lia.
Qed.

Lemma prune_spec_labels : forall asrt labels,
  exists ret, labels_prune asrt labels = Ok ret /\ lenZ ret = lenZ labels /\
    (forall p, 0 <= p < lenZ labels -> (zn ret p = 0 <-> zn labels p = 0)) /\
    (forall p q, 0 <= p < lenZ labels -> 0 <= q < lenZ labels -> zn labels p <> 0 -> zn labels q <> 0 ->
       (zn ret p < zn ret q <-> zn labels p < zn labels q)) /\
    (exists n, forall v, 1 <= v <= n <-> v <> 0 /\ In v ret) /\
    labels_prune asrt ret = Ok ret.
Proof.
  intros asrt labels. rewrite labels_prune_ok. eexists. split; [reflexivity|].
  set (f := fun l => if l =? 0 then 0 else rank labels l).
  assert (L : lenZ (map f labels) = lenZ labels) by (unfold lenZ; now rewrite map_length).
  assert (HP : forall l, In l labels -> l <> 0 -> 1 <= f l <= lenZ (used labels)).
  { intros l Hl H0. unfold f. replace (l =? 0) with false by lia. apply rank_pos. apply used_In. auto. }
  assert (HM : forall l l', In l labels -> In l' labels -> l <> 0 -> l' <> 0 -> (f l < f l' <-> l < l')).
  { intros l l' Hl Hl' H0 H0'.
    assert (In l (used labels)) by (apply used_In; auto). assert (In l' (used labels)) by (apply used_In; auto).
    unfold f. replace (l =? 0) with false by lia. replace (l' =? 0) with false by lia.
    destruct (Z.lt_trichotomy l l') as [X|[X|X]].
    - pose proof (rank_mono labels l l' H H1 X). lia.
    - subst. lia.
    - pose proof (rank_mono labels l' l H1 H X). lia. }
  assert (HI : forall v, 1 <= v <= lenZ (used labels) <-> v <> 0 /\ In v (map f labels)).
  { intros v. split.
    - intros Hv. split; [lia|]. destruct (rank_surj labels v Hv) as (l & Hl & El). apply used_In in Hl.
      apply in_map_iff. exists l. split; [|tauto]. unfold f. destruct (l =? 0) eqn:E0; [lia|auto].
    - intros [H0 Hv]. apply in_map_iff in Hv. destruct Hv as (l & El & Hl). subst v. apply HP; auto.
      intros ->. unfold f in H0. rewrite Z.eqb_refl in H0. lia. }
  split; auto. split.
  { intros p Hp. rewrite zn_map by auto. assert (Hin : In (zn labels p) labels) by (apply zn_In; auto).
    destruct (Z.eq_dec (zn labels p) 0) as [E|E]; [rewrite E; unfold f; rewrite Z.eqb_refl; tauto|].
    specialize (HP _ Hin E). lia. }
  split.
  { intros p q Hp Hq H0 H0'. rewrite !zn_map by auto. apply HM; auto using zn_In. }
  split; [exists (lenZ (used labels)); exact HI|].
  rewrite labels_prune_ok. f_equal. transitivity (map (fun v => v) (map f labels)); [|apply map_id].
  apply map_ext_in. intros v Hv. destruct (v =? 0) eqn:E0; [lia|].
  assert (HU : used (map f labels) = zseq 1 (length (used labels))).
  { apply ssorted_ext; [apply used_sorted|apply zseq_ssorted|]. intros x. rewrite used_In, zseq_In.
    specialize (HI x). unfold lenZ in HI. assert (x <> 0 /\ In x (map f labels) <-> 1 <= x < 1 + Z.of_nat (length (used labels))) by (rewrite <- HI; lia). tauto. }
  assert (Hr : 1 <= v <= lenZ (used labels)) by (apply HI; split; [lia|auto]).
  unfold rank. rewrite HU.
  assert (G : forall n a v, a <= v < a + Z.of_nat n -> lenZ (filter (fun u => u <=? v) (zseq a n)) = v - a + 1).
  { clear. induction n; intros a v H; [lia|]. cbn [zseq filter]. replace (a <=? v) with true by lia. rewrite lenZ_cons.
    destruct (Z.eq_dec v a) as [->|].
    - rewrite filter_none; [unfold lenZ; simpl; lia|]. intros x Hx. apply zseq_In in Hx. lia.
    - rewrite IHn by lia. lia. }
  rewrite G; [lia|]. unfold lenZ in Hr. lia.
Qed.

Lemma reorder_identity : forall asrt labels n, labels <> [] -> 0 < n ->
  (forall x, In x labels <-> 0 <= x < n) -> labels_reorder asrt labels (zseq 0 (Z.to_nat n)) = Ok labels.
Proof.
  intros asrt labels n Hne Hn HS.
  destruct (labels_reorder_ok asrt labels (zseq 0 (Z.to_nat n))) as (ret & E & L & R).
  - intros X. apply (f_equal (@length Z)) in X. rewrite zseq_length in X. simpl in X. lia.
  - apply zseq_NoDup.
  - intros x. rewrite zseq_In. rewrite HS. lia.
  - intros x Hx. apply HS in Hx. lia.
  - rewrite E. f_equal. apply list_ext_zn; auto. intros p Hp. unfold lenZ in Hp. rewrite L in Hp.
    destruct (R p Hp) as [A B]. rewrite zseq_lenZ in A. rewrite zn_zseq in B by lia. lia.
Qed.

Lemma reorder_outcome : forall labels order, labels <> [] -> (forall x, In x labels -> 0 <= x) ->
  ((forall x, In x labels <-> In x order) -> exists ret, labels_reorder true labels order = Ok ret) /\
  (~ (forall x, In x labels <-> In x order) -> labels_reorder true labels order = Throw).
Proof.
  intros labels order Hne HP.
  assert (EU : unique labels = unique order <-> forall x, In x labels <-> In x order).
  { split.
    - intros E x. rewrite <- (unique_In x labels), <- (unique_In x order), E. tauto.
    - intros H. apply ssorted_ext; try apply unique_sorted. intros x. rewrite !unique_In. auto. }
  split; intros H.
  - assert (E : unique labels = unique order) by (apply EU; auto). unfold labels_reorder.
    rewrite E, Z.eqb_refl, eqbl_refl. cbn [assertb bind].
    assert (Ho : order <> []) by (intros ->; destruct labels; [congruence|]; specialize (H z); simpl in H; tauto).
    destruct (max_element_ok order Ho) as (m & Em & Hm & Hmax). rewrite Em, bind_Ok.
    pose proof (HP m (proj2 (H m) Hm)). replace (m + 1 <? 0) with false by lia. rewrite bind_Ok.
    assert (G : forall l r, (forall i, In i l -> 0 <= i < lenZ order) -> lenZ r = m + 1 ->
       exists r', foldM (fun r i => o <- vget order i ;; vset r o i) l r = Ok r' /\ lenZ r' = m + 1).
    { induction l as [|i l IH]; intros r Hl HL; [exists r; auto|]. cbn [foldM].
      assert (Hi : 0 <= i < lenZ order) by (apply Hl; simpl; auto).
      rewrite vget_ok, bind_Ok by auto. assert (Hin : In (zn order i) order) by (apply zn_In; auto).
      pose proof (Hmax _ Hin). pose proof (HP _ (proj2 (H _) Hin)). rewrite vset_ok by lia. rewrite bind_Ok.
      apply IH; [intros; apply Hl; simpl; auto|]. now rewrite upd_lenZ. }
    destruct (G (zseq 0 (length order)) (repeat 0 (Z.to_nat (m + 1)))) as (r & Er & HL).
    { intros i Hi. apply zseq_In in Hi. unfold lenZ. lia. }
    { rewrite repeat_lenZ. lia. }
    rewrite Er, bind_Ok. rewrite mapM_vget_ok; [eauto|]. intros x Hx.
    pose proof (HP x Hx). pose proof (Hmax x (proj1 (H x) Hx)). lia.
  - unfold labels_reorder. destruct (lenZ (unique labels) =? lenZ (unique order)); [|reflexivity]. cbn [assertb bind].
    destruct (eqbl (unique labels) (unique order)) eqn:E; [|reflexivity]. apply eqbl_eq in E. tauto.
Qed.

Lemma occurrences_count : forall l k, occurrences l k = Z.of_nat (count_occ Z.eq_dec l k).
Proof.
  induction l; intros; cbn [occurrences count_occ]; auto. rewrite IHl.
  destruct (Z.eq_dec a k), (a =? k) eqn:E; lia.
Qed.

Lemma sizes_spec : forall labels, StronglySorted Z.lt (map fst (labels_sizes labels)) /\
  (forall k c, In (k, c) (labels_sizes labels) <-> In k labels /\ c = occurrences labels k) /\
  zsum (map snd (labels_sizes labels)) = lenZ labels.
Proof.
  intros labels. destruct (labels_sizes_rows labels) as (A & B & C). split; auto. split; auto.
  intros k c. rewrite occurrences_count. apply B.
Qed.

Lemma sizes_names_spec : forall labels names,
  labels_sizes_names labels names = map (occurrences labels) names.
Proof.
  intros. rewrite labels_sizes_names_ok. apply map_ext. intros. now rewrite occurrences_count.
Qed.
