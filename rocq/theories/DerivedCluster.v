(** * DerivedCluster: consequences of the cluster theorems for pairs of images. *)

From Coq Require Import ZArith List Bool Lia.
From Verif Require Import Base BaseLemmas Cluster Labels SpecCluster ClusterInv ClusterAbs ClusterGeom ClusterRun ClusterMain ClusterTop
  SpecSymmetry LabelsProofs LabelsTop.
Import ListNotations.
Open Scope Z_scope.
Local Opaque Z.mul Z.add Z.sub.

Lemma zprod_nonneg0 : forall shape, Forall (fun n => 0 <= n) shape -> 0 <= zprod shape.
Proof. induction 1; cbn [zprod]; [lia|nia]. Qed.

Lemma zprod_some : forall shape, Forall (fun n => 0 <= n) shape -> 0 < zprod shape -> Forall (fun n => 0 < n) shape.
Proof.
  induction 1; cbn [zprod]; constructor; pose proof (zprod_nonneg0 _ H0); [nia|apply IHForall; nia].
Qed.

Lemma good_pos : forall shape p, good_shape shape -> pixel shape p -> Forall (fun n => 0 < n) shape.
Proof. intros shape p H Hp. unfold good_shape in H. apply zprod_some; [apply H|unfold pixel in Hp; lia]. Qed.

Lemma face_weaken : forall shape a b, inside shape a -> inside shape b ->
  face false shape a b -> face true shape a b.
Proof.
  induction shape as [|n shape IH]; intros [|x a] [|y b]; cbn [inside face]; try tauto.
  intros [Hx Ha] [Hy Hb] [[E F]|[E F]]; [left; auto|right]. split; auto.
  destruct E as [E|E]; [left|right]; subst y; rewrite Z.mod_small; lia.
Qed.

Lemma face_neighbour_weaken : forall per per' shape p q, good_shape shape ->
  (per = true -> per' = true) ->
  face_neighbour per shape p q -> face_neighbour per' shape p q.
Proof.
  intros per per' shape p q HS Hp (H1 & H2 & H3). repeat split; try apply H1; try apply H2.
  pose proof (good_pos _ _ HS H1). destruct per, per'; auto.
  - discriminate Hp; auto.
  - apply face_weaken; auto; apply coords_inside; auto.
Qed.

Lemma clusters_grow : forall asrt shape img img' per per', good_shape shape -> (length shape <= 3)%nat ->
  lenZ img = zprod shape -> lenZ img' = zprod shape ->
  (forall p, pixel shape p -> zn img p <> 0 -> zn img' p <> 0) ->
  (per = true -> per' = true) ->
  exists lab lab', clusters asrt shape img per = Ok lab /\ clusters asrt shape img' per' = Ok lab' /\
    forall p q, pixel shape p -> pixel shape q -> zn lab p <> 0 -> zn lab p = zn lab q ->
      zn lab' p <> 0 /\ zn lab' p = zn lab' q.
Proof.
  intros asrt shape img img' per per' HS HR L L' Hsub Hper.
  destruct (clusters_ok asrt shape img per HS HR L) as (lab & E & _ & Z1 & C1 & _).
  destruct (clusters_ok asrt shape img' per' HS HR L') as (lab' & E' & _ & Z2 & C2 & _).
  exists lab, lab'. split; auto. split; auto. intros p q Hp Hq Hn He.
  assert (Hp0 : zn img p <> 0) by (rewrite <- Z1; auto).
  assert (Hq0 : zn img q <> 0) by (rewrite <- Z1 by auto; congruence).
  split; [rewrite Z2 by auto; auto|]. apply C2; auto. apply C1 in He; auto.
  eapply linked_mono; [| |exact He].
  - intros x y _ _. apply face_neighbour_weaken; auto.
  - intros x [H1 H2]. split; auto.
Qed.

(** ** Labelling a label image *)

Lemma linked_equiv_set : forall adj (A B : Z -> Prop) p q, (forall x, A x <-> B x) ->
  (linked adj A p q <-> linked adj B p q).
Proof. intros adj A B p q H. split; apply linked_mono; auto; intros x; apply H. Qed.

Lemma same_partition_same_labels : forall asrt shape img img' per, good_shape shape -> (length shape <= 3)%nat ->
  lenZ img = zprod shape -> lenZ img' = zprod shape ->
  (forall p, pixel shape p -> (zn img p = 0 <-> zn img' p = 0)) ->
  clusters asrt shape img per = clusters asrt shape img' per.
Proof.
  intros asrt shape img img' per HS HR L L' H0.
  destruct (clusters_ok asrt shape img per HS HR L) as (lab & E & Ll & Z1 & C1 & X1).
  destruct (clusters_ok asrt shape img' per HS HR L') as (lab' & E' & Ll' & Z2 & C2 & X2).
  rewrite E, E'. f_equal. apply list_ext_zn; [unfold lenZ in *; lia|].
  intros p Hp. apply (clusters_determined shape lab lab'); [| | |unfold pixel; lia].
  - intros l [->| ->]; tauto.
  - intros x Hx. rewrite Z1, Z2; auto.
  - intros x y Hx Hy. destruct (Z.eq_dec (zn img x) 0) as [X|X].
    + pose proof (proj2 (Z1 x Hx) X). pose proof (proj2 (Z2 x Hx) (proj1 (H0 x Hx) X)).
      rewrite H, H1. specialize (Z1 y Hy). specialize (Z2 y Hy). specialize (H0 y Hy).
      split; intros X'; symmetry; symmetry in X'; tauto.
    + destruct (Z.eq_dec (zn img y) 0) as [Y|Y].
      * pose proof (proj2 (Z1 y Hy) Y). pose proof (proj2 (Z2 y Hy) (proj1 (H0 y Hy) Y)).
        rewrite H, H1. specialize (Z1 x Hx). specialize (Z2 x Hx). specialize (H0 x Hx). tauto.
      * rewrite C1, C2; auto; try (rewrite <- H0; auto).
        apply linked_equiv_set. intros z. split; intros [Hz Hz']; split; auto; [rewrite <- H0|rewrite H0]; auto.
Qed.

Lemma clusters_idempotent : forall asrt shape img per, good_shape shape -> (length shape <= 3)%nat ->
  lenZ img = zprod shape ->
  exists lab, clusters asrt shape img per = Ok lab /\ clusters asrt shape lab per = Ok lab /\
    labels_prune asrt lab = Ok lab.
Proof.
  intros asrt shape img per HS HR L.
  destruct (clusters_ok asrt shape img per HS HR L) as (lab & E & Ll & Z1 & C1 & (n & Hn) & Hpos & _).
  exists lab. split; auto. split.
  { rewrite <- E. apply same_partition_same_labels; auto. }
  rewrite labels_prune_ok. f_equal. transitivity (map (fun v => v) lab); [|apply map_id].
  apply map_ext_in. intros v Hv. destruct (v =? 0) eqn:E0; [lia|].
  assert (HIn : forall x, In x lab <-> exists p, pixel shape p /\ zn lab p = x).
  { intros x. unfold pixel. rewrite <- Ll. split; [apply In_zn|]. intros (p & H1 & <-). apply zn_In; auto. }
  assert (HU : used lab = zseq 1 (Z.to_nat n)).
  { apply ssorted_ext; [apply used_sorted|apply zseq_ssorted|]. intros x. rewrite used_In, zseq_In.
    specialize (Hn x). specialize (HIn x).
    assert (1 <= x <= n <-> 1 <= x < 1 + Z.of_nat (Z.to_nat n)) by lia. tauto. }
  assert (Hr : 1 <= v <= n) by (apply Hn; split; [lia|apply HIn; auto]).
  unfold rank. rewrite HU.
  assert (G : forall n a v, a <= v < a + Z.of_nat n -> lenZ (filter (fun u => u <=? v) (zseq a n)) = v - a + 1).
  { clear. induction n; intros a v H; [lia|]. cbn [zseq filter]. replace (a <=? v) with true by lia. rewrite lenZ_cons.
    destruct (Z.eq_dec v a) as [->|].
    - rewrite filter_none; [unfold lenZ; simpl; lia|]. intros x Hx. apply zseq_In in Hx. lia.
    - rewrite IHn by lia. lia. }
  rewrite G; [lia|]. lia.
Qed.

(** ** Moving an image *)

Lemma linked_map : forall (adj adj' : Z -> Z -> Prop) (A A' : Z -> Prop) (T : Z -> Z -> Prop),
  (forall x, A x -> exists x', T x x') ->
  (forall x x' y y', T x x' -> T y y' -> adj x y -> adj' x' y') ->
  (forall x x', T x x' -> A x -> A' x') ->
  (forall x x' x'', T x x' -> T x x'' -> x' = x'') ->
  forall p q, linked adj A p q -> forall p' q', T p p' -> T q q' -> linked adj' A' p' q'.
Proof.
  intros adj adj' A A' T Htot Hadj HA Hfun p q HL. induction HL; intros p' q' Hp Hq.
  - rewrite (Hfun _ _ _ Hp Hq). constructor. eapply HA; eauto.
  - destruct (Htot q (linked_src _ _ _ _ HL)) as (x' & Hx).
    apply linked_step with (q := x'); [eapply HA; eauto|eapply Hadj; eauto|apply IHHL; auto].
Qed.

(** A one-to-one map of pixels that keeps neighbours neighbours keeps clusters clusters. *)
Definition matching (shape shape' : list Z) (T : Z -> Z -> Prop) : Prop :=
  (forall x x', T x x' -> pixel shape x /\ pixel shape' x') /\
  (forall x, pixel shape x -> exists x', T x x') /\
  (forall x', pixel shape' x' -> exists x, T x x') /\
  (forall x x' x'', T x x' -> T x x'' -> x' = x'') /\
  (forall x y x', T x x' -> T y x' -> x = y).

Lemma carried_zn : forall T a b, carried T a b -> forall p q, T p q -> zn b q = zn a p.
Proof.
  intros T a b H p q HT. specialize (H p q HT). unfold zn.
  destruct (nth_error a (Z.to_nat p)) as [x|] eqn:E.
  - rewrite (nth_error_nth _ _ _ H), (nth_error_nth _ _ _ E). auto.
  - apply nth_error_None in E. apply nth_error_None in H. rewrite !nth_overflow; auto.
Qed.

Lemma clusters_moved : forall asrt shape shape' img img' per T, good_shape shape -> (length shape <= 3)%nat ->
  good_shape shape' -> (length shape' <= 3)%nat ->
  lenZ img = zprod shape -> lenZ img' = zprod shape' ->
  matching shape shape' T ->
  (forall x x' y y', T x x' -> T y y' -> (face_neighbour per shape x y <-> face_neighbour per shape' x' y')) ->
  carried T img img' ->
  exists lab lab', clusters asrt shape img per = Ok lab /\ clusters asrt shape' img' per = Ok lab' /\
    forall p q p' q', T p p' -> T q q' ->
      (zn lab p = 0 <-> zn lab' p' = 0) /\ (zn lab p = zn lab q <-> zn lab' p' = zn lab' q').
Proof.
  intros asrt shape shape' img img' per T HS HR HS' HR' L L' (T0 & T1 & T2 & T3 & T4) HN HC0. pose proof (carried_zn _ _ _ HC0) as HC.
  destruct (clusters_ok asrt shape img per HS HR L) as (lab & E & _ & Z1 & C1 & _).
  destruct (clusters_ok asrt shape' img' per HS' HR' L') as (lab' & E' & _ & Z2 & C2 & _).
  exists lab, lab'. split; auto. split; auto. intros p q p' q' Hp Hq.
  destruct (T0 _ _ Hp) as [Pp Pp'], (T0 _ _ Hq) as [Pq Pq'].
  pose proof (HC _ _ Hp) as Ep. pose proof (HC _ _ Hq) as Eq.
  pose proof (Z1 p Pp) as Zp. pose proof (Z1 q Pq) as Zq.
  pose proof (Z2 p' Pp') as Zp'. pose proof (Z2 q' Pq') as Zq'.
  rewrite Ep in Zp'. rewrite Eq in Zq'.
  split; [tauto|].
  destruct (Z.eq_dec (zn img p) 0) as [X|X].
  { apply Zp in X as Y. apply Zp' in X as Y'. rewrite Y, Y'. split; intros H; symmetry; symmetry in H; tauto. }
  destruct (Z.eq_dec (zn img q) 0) as [X'|X'].
  { apply Zq in X' as Y. apply Zq' in X' as Y'. rewrite Y, Y'. tauto. }
  rewrite C1, C2 by (auto; congruence).
  split; intros HL.
  - apply (linked_map (face_neighbour per shape) (face_neighbour per shape')
             (fun x => pixel shape x /\ zn img x <> 0) (fun x => pixel shape' x /\ zn img' x <> 0) T) with (p := p) (q := q); auto.
    + intros x [Hx _]; auto.
    + intros x x' y y' Hx Hy. apply HN; auto.
    + intros x x' Hx [_ Hx0]. split; [apply (T0 x x'); auto|]. rewrite (HC _ _ Hx). auto.
  - apply (linked_map (face_neighbour per shape') (face_neighbour per shape)
             (fun x => pixel shape' x /\ zn img' x <> 0) (fun x => pixel shape x /\ zn img x <> 0) (fun a b => T b a)) with (p := p') (q := q'); auto.
    + intros x [Hx _]; auto.
    + intros x x' y y' Hx Hy. apply HN; auto.
    + intros x x' Hx [_ Hx0]. split; [apply (T0 x' x); auto|]. rewrite <- (HC _ _ Hx). auto.
    + intros x x' x'' H1 H2. eapply T4; eauto.
Qed.

(** *** Rolling *)

Lemma moved_total : forall shape a d, Forall (fun n => 0 < n) shape -> inside shape a -> length d = length shape ->
  exists b, inside shape b /\ moved true shape a d b.
Proof.
  induction shape as [|n shape IH]; intros [|x a] [|t d] HP; cbn [inside moved length]; intros Ha Hd; try tauto; try lia.
  - exists []. simpl. auto.
  - inversion HP; subst. destruct (IH a d) as (b & Hb & Hm); [auto|tauto|lia|].
    exists ((x + t) mod n :: b). cbn [inside moved]. repeat split; auto; apply Z.mod_pos_bound; auto.
Qed.

Lemma pixel_of_coords : forall shape c, inside shape c -> exists p, pixel shape p /\ coords shape p = c.
Proof. intros shape c H. exists (ravel shape c). split; [apply ravel_range; auto|apply coords_ravel; auto]. Qed.

Lemma moved_back : forall shape a d b, inside shape a -> inside shape b ->
  moved true shape b (map Z.opp d) a -> moved true shape a d b.
Proof.
  intros shape a d b Ha Hb H. apply moved_sym in H; auto. rewrite map_map in H.
  rewrite (map_ext _ (fun x => x)) in H by (intros; lia). now rewrite map_id in H.
Qed.

Lemma rolls_matching : forall d shape, (forall p, pixel shape p -> Forall (fun n => 0 < n) shape) -> length d = length shape -> matching shape shape (rolls d shape).
Proof.
  intros d shape HP Hd. unfold matching, rolls. repeat split; try apply H.
  - intros x Hx. destruct (moved_total shape (coords shape x) d) as (b & Hb & Hm); eauto using coords_inside.
    destruct (pixel_of_coords shape b Hb) as (q & Hq & <-). exists q; auto.
  - intros x Hx. destruct (moved_total shape (coords shape x) (map Z.opp d)) as (b & Hb & Hm); eauto using coords_inside.
    { rewrite map_length; auto. }
    destruct (pixel_of_coords shape b Hb) as (q & Hq & <-). exists q; repeat split; auto; try apply Hq; try apply Hx.
    apply moved_back; eauto using coords_inside.
  - intros x x' x'' (_ & H1 & H2) (_ & H3 & H4). apply (coords_inj shape); eauto. eapply moved_functional; eauto.
  - intros x y x' (H1 & H2 & H3) (H4 & _ & H5). apply (coords_inj shape); eauto.
    apply moved_sym in H3; eauto using coords_inside. apply moved_sym in H5; eauto using coords_inside.
    eapply moved_functional; eauto.
Qed.

Lemma face_moved : forall shape d a b a' b', moved true shape a d a' -> moved true shape b d b' ->
  face true shape a b -> face true shape a' b'.
Proof.
  induction shape as [|n shape IH]; intros [|t d] [|x a] [|y b] [|x' a'] [|y' b']; cbn [moved face]; try tauto.
  intros [-> Ha] [-> Hb] [[-> H]|[E ->]].
  - left. split; auto. eapply IH; eauto.
  - right. split; [|eapply moved_functional; eauto].
    destruct (Z.eq_dec n 0) as [->|Hn]; [rewrite !Zmod_0_r in *; lia|].
    destruct E as [->| ->]; [left|right].
    + rewrite Z.add_mod_idemp_l by auto. rewrite Z.add_mod_idemp_l by auto. f_equal. lia.
    + rewrite Z.add_mod_idemp_l by auto. rewrite Zminus_mod_idemp_l. f_equal. lia.
Qed.

Lemma roll_clusters : forall asrt shape d img img', good_shape shape -> (length shape <= 3)%nat ->
  length d = length shape -> lenZ img = zprod shape -> lenZ img' = zprod shape ->
  carried (rolls d shape) img img' ->
  exists lab lab', clusters asrt shape img true = Ok lab /\ clusters asrt shape img' true = Ok lab' /\
    forall p q p' q', rolls d shape p p' -> rolls d shape q q' ->
      (zn lab p = 0 <-> zn lab' p' = 0) /\ (zn lab p = zn lab q <-> zn lab' p' = zn lab' q').
Proof.
  intros asrt shape d img img' HS HR Hd L L' HC. pose proof (fun p => good_pos shape p HS) as HP.
  apply clusters_moved; auto using rolls_matching.
  intros x x' y y' (H1 & H2 & H3) (H4 & H5 & H6). unfold face_neighbour.
  split; intros (_ & _ & HF); repeat split; try (unfold pixel in *; lia).
  - eapply face_moved; eauto.
  - apply moved_sym in H3; eauto using coords_inside. apply moved_sym in H6; eauto using coords_inside.
    eapply face_moved; eauto.
Qed.

(** *** Flipping *)

Lemma flipped_total : forall which shape a, inside shape a -> length which = length shape ->
  exists b, inside shape b /\ flipped which shape a b.
Proof.
  induction which as [|w which IH]; intros [|n shape] [|x a]; cbn [inside flipped length]; intros Ha Hd; try tauto; try lia.
  - exists []. simpl. auto.
  - destruct (IH shape a) as (b & Hb & Hm); [tauto|lia|].
    exists ((if w then n - 1 - x else x) :: b). cbn [inside flipped]. repeat split; auto; destruct w; lia.
Qed.

Lemma flipped_functional : forall which shape a b b', flipped which shape a b -> flipped which shape a b' -> b = b'.
Proof.
  induction which as [|w which IH]; intros [|n shape] [|x a] [|y b] [|y' b']; cbn [flipped]; try tauto.
  intros [-> H] [-> H']. f_equal. eapply IH; eauto.
Qed.

Lemma flipped_sym : forall which shape a b, flipped which shape a b -> flipped which shape b a.
Proof.
  induction which as [|w which IH]; intros [|n shape] [|x a] [|y b]; cbn [flipped]; try tauto.
  intros [-> H]. split; auto. destruct w; lia.
Qed.

Lemma flips_matching : forall which shape, (forall p, pixel shape p -> Forall (fun n => 0 < n) shape) -> length which = length shape -> matching shape shape (flips which shape).
Proof.
  intros which shape HP Hd. unfold matching, flips.
  assert (Ht : forall x, pixel shape x -> exists x', pixel shape x' /\ flipped which shape (coords shape x) (coords shape x')).
  { intros x Hx. destruct (flipped_total which shape (coords shape x)) as (b & Hb & Hm); eauto using coords_inside.
    destruct (pixel_of_coords shape b Hb) as (q & Hq & <-). exists q; auto. }
  repeat split; try apply H.
  - intros x Hx. destruct (Ht x Hx) as (x' & H1 & H2). eauto.
  - intros x Hx. destruct (Ht x Hx) as (x' & H1 & H2). exists x'. auto using flipped_sym.
  - intros x x' x'' (_ & H1 & H2) (_ & H3 & H4). apply (coords_inj shape); eauto. eapply flipped_functional; eauto.
  - intros x y x' (H1 & H2 & H3) (H4 & _ & H5). apply (coords_inj shape); eauto.
    apply flipped_sym in H3. apply flipped_sym in H5. eapply flipped_functional; eauto.
Qed.

Lemma face_flipped : forall per which shape a b a' b', inside shape a -> flipped which shape a a' -> flipped which shape b b' ->
  face per shape a b -> face per shape a' b'.
Proof.
  induction which as [|w which IH]; intros [|n shape] [|x a] [|y b] [|x' a'] [|y' b']; cbn [flipped face inside]; try tauto.
  intros [Hx Hi] [-> Ha] [-> Hb] [[-> H]|[E ->]].
  - left. split; auto. eapply IH; eauto.
  - right. split; [|eapply flipped_functional; eauto].
    destruct w; auto. destruct per; [|lia].
    assert (M : forall v, 0 < n -> n - 1 - v mod n = (n - 1 - v) mod n).
    { intros v Hn. pose proof (Z.div_mod v n). pose proof (Z.mod_pos_bound v n).
      apply (Z.mod_unique _ _ (- (v / n))); [left|]; lia. }
    destruct E as [->| ->]; [right|left]; rewrite M by lia; f_equal; lia.
Qed.

Lemma flip_clusters : forall asrt shape which img img' per, good_shape shape -> (length shape <= 3)%nat ->
  length which = length shape -> lenZ img = zprod shape -> lenZ img' = zprod shape ->
  carried (flips which shape) img img' ->
  exists lab lab', clusters asrt shape img per = Ok lab /\ clusters asrt shape img' per = Ok lab' /\
    forall p q p' q', flips which shape p p' -> flips which shape q q' ->
      (zn lab p = 0 <-> zn lab' p' = 0) /\ (zn lab p = zn lab q <-> zn lab' p' = zn lab' q').
Proof.
  intros asrt shape which img img' per HS HR Hd L L' HC. pose proof (fun p => good_pos shape p HS) as HP.
  apply clusters_moved; auto using flips_matching.
  intros x x' y y' (H1 & H2 & H3) (H4 & H5 & H6). unfold face_neighbour.
  split; intros (_ & _ & HF); repeat split; try (unfold pixel in *; lia).
  - eapply face_flipped; [|exact H3|exact H6|]; eauto using coords_inside.
  - apply flipped_sym in H3. apply flipped_sym in H6.
    eapply face_flipped; [|exact H3|exact H6|]; eauto using coords_inside.
Qed.

(** *** Transposing *)

Lemma zprod_app : forall a b, zprod (a ++ b) = zprod a * zprod b.
Proof. induction a; intros; cbn [app zprod]; [lia|]. rewrite IHa. lia. Qed.

Lemma zprod_rev : forall a, zprod (rev a) = zprod a.
Proof. induction a; cbn [rev zprod]; auto. rewrite zprod_app. cbn [zprod]. lia. Qed.

Lemma inside_app : forall s a s' a', inside s a -> inside s' a' -> inside (s ++ s') (a ++ a').
Proof. induction s; intros [|x b] s' a'; cbn [inside app]; try tauto. intros [H1 H2] H3. auto. Qed.

Lemma inside_rev : forall s a, inside s a -> inside (rev s) (rev a).
Proof.
  induction s; intros [|x b]; cbn [inside rev]; try tauto. intros [H1 H2].
  apply inside_app; [auto|]. cbn [inside]. auto.
Qed.

Lemma face_app_l : forall per s a b s' c, length c = length s' -> face per s a b -> face per (s ++ s') (a ++ c) (b ++ c).
Proof.
  induction s; intros [|x a0] [|y b] s' c Hc; cbn [face app]; try tauto.
  intros [[E H]|[E H]]; [left|right]; split; auto. congruence.
Qed.

Lemma face_app_r : forall per s a s' b c, length a = length s -> face per s' b c -> face per (s ++ s') (a ++ b) (a ++ c).
Proof.
  induction s; intros [|x a0] s' b c Hc; cbn [face app length] in *; try tauto; try lia.
  intros H. left. split; auto.
Qed.

Lemma face_rev : forall per s a b, inside s a -> inside s b -> face per s a b -> face per (rev s) (rev a) (rev b).
Proof.
  induction s as [|n s IH]; intros [|x a] [|y b]; cbn [face rev inside]; try tauto.
  intros [Hx Ha] [Hy Hb] [[-> H]|[E ->]].
  - apply face_app_l; auto.
  - apply face_app_r; [rewrite !rev_length; apply inside_length; auto|]. cbn [face]. auto.
Qed.

Lemma good_shape_rev : forall shape, good_shape shape -> good_shape (rev shape).
Proof.
  unfold good_shape. intros shape H. repeat split.
  - intros E. apply (f_equal (@rev Z)) in E. rewrite rev_involutive in E. tauto.
  - apply Forall_rev. tauto.
  - rewrite zprod_rev. tauto.
Qed.

Lemma transposes_sym : forall shape p q, transposes shape p q -> transposes (rev shape) q p.
Proof.
  intros shape p q (H1 & H2 & H3). unfold transposes. rewrite rev_involutive. repeat split; try apply H1; try apply H2.
  rewrite H3, rev_involutive. auto.
Qed.

Lemma transposes_total : forall shape p, (forall p, pixel shape p -> Forall (fun n => 0 < n) shape) ->
  pixel shape p -> exists q, transposes shape p q.
Proof.
  intros shape p HS Hp. pose proof (HS _ Hp).
  destruct (pixel_of_coords (rev shape) (rev (coords shape p))) as (q & Hq & E).
  - apply inside_rev. apply coords_inside; auto.
  - exists q. split; auto.
Qed.

Lemma transposes_functional : forall shape p q q', (forall p, pixel shape p -> Forall (fun n => 0 < n) shape) ->
  transposes shape p q -> transposes shape p q' -> q = q'.
Proof.
  intros shape p q q' HS (H1 & H2 & H3) (_ & H4 & H5). apply (coords_inj (rev shape)); auto; [|congruence].
  apply Forall_rev. eapply HS; eauto.
Qed.

Lemma pos_rev : forall shape, (forall p, pixel shape p -> Forall (fun n => 0 < n) shape) ->
  (forall p, pixel (rev shape) p -> Forall (fun n => 0 < n) (rev shape)).
Proof. intros shape H p Hp. apply Forall_rev. apply (H p). unfold pixel in *. rewrite zprod_rev in Hp. auto. Qed.

Lemma transposes_matching : forall shape, (forall p, pixel shape p -> Forall (fun n => 0 < n) shape) ->
  matching shape (rev shape) (transposes shape).
Proof.
  intros shape HS. pose proof (pos_rev _ HS) as HS'. unfold matching. split; [|split; [|split; [|split]]].
  - intros x x' H. split; apply H.
  - intros x Hx. apply transposes_total; auto.
  - intros x Hx. destruct (transposes_total (rev shape) x HS' Hx) as (q & Hq).
    apply transposes_sym in Hq. rewrite rev_involutive in Hq. eauto.
  - intros x x' x'' H1 H2. exact (transposes_functional shape x x' x'' HS H1 H2).
  - intros x y x' H1 H2. apply transposes_sym in H1. apply transposes_sym in H2.
    exact (transposes_functional (rev shape) x' x y HS' H1 H2).
Qed.

Lemma transpose_clusters : forall asrt shape img img' per, good_shape shape -> (length shape <= 3)%nat ->
  lenZ img = zprod shape -> lenZ img' = zprod shape ->
  carried (transposes shape) img img' ->
  exists lab lab', clusters asrt shape img per = Ok lab /\ clusters asrt (rev shape) img' per = Ok lab' /\
    forall p q p' q', transposes shape p p' -> transposes shape q q' ->
      (zn lab p = 0 <-> zn lab' p' = 0) /\ (zn lab p = zn lab q <-> zn lab' p' = zn lab' q').
Proof.
  intros asrt shape img img' per HS HR L L' HC. pose proof (good_shape_rev _ HS) as HS'.
  pose proof (transposes_matching shape (fun p => good_pos shape p HS)).
  apply clusters_moved; auto; rewrite ?rev_length, ?zprod_rev; auto.
  intros x x' y y' (H1 & H2 & H3) (H4 & H5 & H6). unfold face_neighbour.
  pose proof (good_pos _ _ HS H1) as HP. pose proof (good_pos _ _ HS' H2) as HP'.
  split; intros (_ & _ & HF); (split; [assumption|]); (split; [assumption|]).
  - rewrite H3, H6. apply face_rev; auto using coords_inside.
  - apply face_rev in HF; auto using coords_inside. rewrite H3, H6, !rev_involutive in HF. auto.
Qed.

Lemma symmetries_one_to_one :
  forall d which shape, good_shape shape -> length d = length shape -> length which = length shape ->
  forall T, In T [rolls d shape; flips which shape; transposes shape] ->
  (forall p, pixel shape p -> exists p', T p p') /\
  (forall p p' p'', T p p' -> T p p'' -> p' = p'') /\ (forall p q p', T p p' -> T q p' -> p = q).
Proof.
  intros d which shape HS0 Hd Hw T HT. pose proof (fun p => good_pos shape p HS0) as HS. destruct HT as [<-|[<-|[<-|[]]]].
  - destruct (rolls_matching d shape HS Hd) as (_ & H1 & _ & H2 & H3). auto.
  - destruct (flips_matching which shape HS Hw) as (_ & H1 & _ & H2 & H3). auto.
  - destruct (transposes_matching shape HS) as (_ & H1 & _ & H2 & H3). auto.
Qed.
