(** * LabelLaws: the label utilities together *)

From Coq Require Import ZArith List Bool Lia Reals.
From Verif Require Import Base BaseLemmas Cluster Labels Center SpecCluster SpecLabels LabelsProofs LabelsTop ClusterInv ClusterMain ClusterGeom ClusterRun KernelProofs ClusterTop SpecLabelLaws.
Import ListNotations.
Open Scope Z_scope.

(** The pixels with a label, as a list of ones and zeros. *)
Lemma marks_eq : forall a b k k', lenZ a = lenZ b -> (forall p, 0 <= p < lenZ a -> (zn a p = k <-> zn b p = k')) ->
  map (fun l => if l =? k then 1 else 0) a = map (fun l => if l =? k' then 1 else 0) b.
Proof.
  induction a as [|x a IH]; intros [|y b] k k' HL H; unfold lenZ in HL; cbn [length] in HL; try lia; [reflexivity|]. cbn [map]. f_equal.
  - specialize (H 0). unfold lenZ in H. cbn [length] in H. specialize (H ltac:(lia)). unfold zn in H. cbn in H.
    destruct (Z.eqb_spec x k), (Z.eqb_spec y k'); tauto.
  - apply IH; [unfold lenZ; lia|]. intros p Hp. specialize (H (p + 1)). unfold lenZ in *. cbn [length] in H. specialize (H ltac:(lia)).
    unfold zn in *. replace (Z.to_nat (p + 1)) with (S (Z.to_nat p)) in H by lia. exact H.
Qed.

Lemma occurrences_marks : forall a k, occurrences a k = zsum (map (fun l => if l =? k then 1 else 0) a).
Proof. induction a; intros; cbn; [reflexivity|]. rewrite IHa. reflexivity. Qed.

Lemma alike_of : forall a b names names', lenZ a = lenZ b ->
  Forall2 (fun k k' => forall p, 0 <= p < lenZ a -> (zn a p = k <-> zn b p = k')) names names' -> measured_alike a names b names'.
Proof.
  intros a b names names' HL HF. split; [|split].
  - rewrite !sizes_names_spec. induction HF as [|k k' l l' H _ IH]; [reflexivity|]. cbn [map]. f_equal; [|exact IH].
    rewrite !occurrences_marks. f_equal. apply marks_eq; auto.
  - intros asrt shape per. unfold labels_centers. destruct (assertb asrt (Nat.ltb 0 (length shape))); cbn [bind]; try reflexivity.
    induction HF as [|k k' l l' H _ IH]; [reflexivity|]. cbn [mapM].
    assert (E : where_equal shape a k = where_equal shape b k') by (unfold where_equal; rewrite (marks_eq a b k k' HL H); reflexivity).
    rewrite E, IH. reflexivity.
  - intros asrt shape wshape w per. unfold labels_centers_of_mass. destruct (assertb asrt (eqbl shape wshape)); cbn [bind]; try reflexivity.
    destruct (assertb asrt (Nat.ltb 0 (length shape))); cbn [bind]; try reflexivity.
    induction HF as [|k k' l l' H _ IH]; [reflexivity|]. cbn [mapM].
    assert (E : where_equal shape a k = where_equal shape b k') by (unfold where_equal; rewrite (marks_eq a b k k' HL H); reflexivity).
    rewrite E, IH. reflexivity.
Qed.

Lemma partition_alike : forall a b ps, same_partition a b -> (forall p, In p ps -> 0 <= p < lenZ a) ->
  measured_alike a (map (zn a) ps) b (map (zn b) ps).
Proof.
  intros a b ps (HL & HP) HI. apply alike_of; [exact HL|]. induction ps as [|p ps IH]; [constructor|]. cbn [map]. constructor.
  - intros q Hq. apply HP; auto. apply HI. left. reflexivity.
  - apply IH. intros; apply HI; right; auto.
Qed.

Lemma prune_partition : forall asrt labels, exists ret, labels_prune asrt labels = Ok ret /\ same_partition labels ret.
Proof.
  intros asrt labels. destruct (prune_spec_labels asrt labels) as (ret & E & HL & HZ & HM & _). exists ret. split; [exact E|].
  split; [lia|]. intros p q Hp Hq. pose proof (HZ p Hp). pose proof (HZ q Hq).
  destruct (Z.eq_dec (zn labels p) 0) as [Ep|Ep]; [clear HM HZ; lia|].
  destruct (Z.eq_dec (zn labels q) 0) as [Eq|Eq]; [clear HM HZ; lia|].
  pose proof (HM p q Hp Hq Ep Eq). pose proof (HM q p Hq Hp Eq Ep). lia.
Qed.

Lemma reorder_measures : forall asrt labels order, order <> [] -> NoDup order ->
  (forall x, In x labels <-> In x order) -> (forall x, In x labels -> 0 <= x) ->
  exists ret, labels_reorder asrt labels order = Ok ret /\ measured_alike ret (zseq 0 (length order)) labels order.
Proof.
  intros asrt labels order H1 H2 H3 H4. destruct (labels_reorder_ok asrt labels order H1 H2 H3 H4) as (ret & E & HL & HP).
  exists ret. split; [exact E|]. apply alike_of; [unfold lenZ; lia|].
  assert (G : forall k l, (forall i, (i < length l)%nat -> nth i l 0 = zn order (k + Z.of_nat i)) -> 0 <= k -> k + lenZ l <= lenZ order ->
    Forall2 (fun k k' => forall p, 0 <= p < lenZ ret -> (zn ret p = k <-> zn labels p = k')) (zseq k (length l)) l).
  { intros k l. revert k. induction l as [|x l IH]; intros k Hl Hk Hb; [constructor|]. cbn [length zseq]. unfold lenZ in Hb. cbn [length] in Hb. constructor.
    - intros p Hp. specialize (HP p ltac:(unfold lenZ in *; lia)). destruct HP as (B & V). specialize (Hl 0%nat ltac:(cbn; lia)). cbn [nth] in Hl.
      rewrite Z.add_0_r in Hl. subst x. split; [intros <-; symmetry; exact V|]. intros W. rewrite W in V.
      unfold zn at 1 3 in V. clear IH. apply (proj1 (NoDup_nth order 0) H2) in V; unfold lenZ in *; lia.
    - apply IH; [|lia|unfold lenZ; lia]. intros i Hi. specialize (Hl (S i) ltac:(cbn; lia)). cbn [nth] in Hl. rewrite Hl. f_equal. lia. }
  apply G; [|lia|lia]. intros i Hi. rewrite Z.add_0_l. unfold zn. rewrite Nat2Z.id. reflexivity.
Qed.

Lemma first_row_unique : forall rows k v v', first_row rows k v -> first_row rows k v' -> v = v'.
Proof. intros rows k v v' H H'. apply lookup_first_row in H, H'. congruence. Qed.

Lemma list_zn : forall a b, lenZ a = lenZ b -> (forall p, 0 <= p < lenZ a -> zn a p = zn b p) -> a = b.
Proof.
  intros a b HL H. apply (nth_ext a b 0 0); [unfold lenZ in HL; lia|]. intros i Hi. specialize (H (Z.of_nat i)). unfold zn in H. rewrite Nat2Z.id in H.
  apply H. unfold lenZ. lia.
Qed.

Lemma in_zn : forall l x, In x l -> exists p, 0 <= p < lenZ l /\ zn l p = x.
Proof. intros l x H. apply (In_nth l x 0) in H. destruct H as (i & Hi & E). exists (Z.of_nat i). unfold zn, lenZ. rewrite Nat2Z.id. split; [lia|exact E]. Qed.
Lemma zn_in : forall l p, 0 <= p < lenZ l -> In (zn l p) l.
Proof. intros l p H. apply nth_In. unfold lenZ in H. lia. Qed.

Lemma rename_composes : forall asrt labels rows rows' rows'',
  (forall k, In k labels -> exists u v, first_row rows k u /\ first_row rows' u v /\ first_row rows'' k v) ->
  exists mid ret, labels_rename asrt labels (lenZ rows) 2 (table rows) = Ok mid /\
    labels_rename asrt mid (lenZ rows') 2 (table rows') = Ok ret /\
    labels_rename asrt labels (lenZ rows'') 2 (table rows'') = Ok ret.
Proof.
  intros asrt labels rows rows' rows'' H.
  assert (IN : forall l k v, first_row l k v -> In (k, v) l) by (intros l k v (x & y & -> & _); apply in_or_app; right; left; reflexivity).
  destruct (rename_spec asrt labels rows) as (mid & E1 & L1 & V1).
  { intros l Hl. destruct (H l Hl) as (u & v & A & _). eauto. }
  destruct (rename_spec asrt mid rows') as (ret & E2 & L2 & V2).
  { intros u Hu. destruct (in_zn _ _ Hu) as (p & Hp & <-). destruct (H (zn labels p) (zn_in labels p ltac:(lia))) as (u & v & A & B & _).
    rewrite (first_row_unique _ _ _ _ (V1 p ltac:(lia)) A). eauto. }
  destruct (rename_spec asrt labels rows'') as (ret' & E3 & L3 & V3).
  { intros l Hl. destruct (H l Hl) as (u & v & _ & _ & A). eauto. }
  exists mid, ret. split; [exact E1|]. split; [exact E2|]. rewrite E3. f_equal. apply list_zn; [lia|]. intros p Hp.
  destruct (H (zn labels p) (zn_in labels p ltac:(lia))) as (u & v & A & B & C).
  rewrite (first_row_unique _ _ _ _ (V3 p ltac:(lia)) C). pose proof (V2 p ltac:(lia)) as W.
  rewrite (first_row_unique _ _ _ _ (V1 p ltac:(lia)) A) in W. exact (first_row_unique _ _ _ _ B W).
Qed.

Lemma labeller_clusters : forall asrt shape per ops img, good_shape shape -> (length shape <= 3)%nat -> Forall (legal shape) ops ->
  lenZ img = zprod shape -> (forall p, pixel shape p -> (zn img p <> 0 <-> added ops p)) ->
  exists g s outs lab rows, make_default shape per = Ok g /\ run asrt g ops = Ok (s, outs) /\ clusters asrt shape img per = Ok lab /\
    same_partition (c_label s) lab /\ labels_map (c_label s) lab = Ok rows /\
    labels_rename asrt (c_label s) (lenZ rows) 2 (table rows) = Ok lab.
Proof.
  intros asrt shape per ops img HS HR HO HI HA.
  destruct (run_partition_default asrt shape per ops HS HR HO) as (g & s & outs & G & E & HP).
  destruct (make_default_ok shape per HS HR) as (g' & G' & Hwf & Es & _). assert (g' = g) by congruence. subst g'.
  destruct (run_support asrt g ops Hwf) as (s' & outs' & E' & HL & HZ); [rewrite Es; exact HO|]. assert (s' = s) by congruence. subst s'.
  rewrite Es in HL, HZ. destruct (clusters_ok asrt shape img per HS HR HI) as (lab & C & CL & CZ & CP & _).
  assert (SP : same_partition (c_label s) lab).
  { split; [lia|]. intros p q Hp Hq. assert (Pp : pixel shape p) by (unfold pixel; lia). assert (Pq : pixel shape q) by (unfold pixel; lia).
    pose proof (HZ p Pp). pose proof (HZ q Pq). pose proof (CZ p Pp). pose proof (CZ q Pq). pose proof (HA p Pp). pose proof (HA q Pq).
    destruct (Z.eq_dec (zn (c_label s) p) 0) as [Ep|Ep]; destruct (Z.eq_dec (zn (c_label s) q) 0) as [Eq|Eq].
    - assert (zn img p = 0) by (destruct (Z.eq_dec (zn img p) 0); tauto). assert (zn img q = 0) by (destruct (Z.eq_dec (zn img q) 0); tauto). clear HP CP HZ CZ HA; lia.
    - assert (zn img p = 0) by (destruct (Z.eq_dec (zn img p) 0); tauto). assert (zn img q <> 0) by tauto. clear HP CP HZ CZ HA; lia.
    - assert (zn img q = 0) by (destruct (Z.eq_dec (zn img q) 0); tauto). assert (zn img p <> 0) by tauto. clear HP CP HZ CZ HA; lia.
    - rewrite (HP p q Pp Pq) by tauto. rewrite (CP p q Pp Pq) by tauto. split; intro L.
      + clear -L HA. induction L as [p A|p q r A B _ IH]; [apply linked_refl|eapply linked_step; [|exact B|exact IH]]; destruct A; split; auto; apply HA; auto.
      + clear -L HA. induction L as [p A|p q r A B _ IH]; [apply linked_refl|eapply linked_step; [|exact B|exact IH]]; destruct A; split; auto; apply HA; auto. }
  destruct (map_rename asrt (c_label s) lab) as (rows & M & R); [apply SP|intros p q Hp Hq; apply SP; auto|].
  exists g, s, outs, lab, rows. repeat (split; [assumption|]). assumption.
Qed.
