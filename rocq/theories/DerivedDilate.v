(** * DerivedDilate: consequences of the dilation theorems. *)

From Coq Require Import ZArith List Bool Lia.
From Verif Require Import Base BaseLemmas Cluster Kernel SpecCluster ClusterGeom ClusterMain Dilate SpecDilate DilateTop
  SpecSymmetry DerivedCluster.
Import ListNotations.
Open Scope Z_scope.
Local Opaque Z.mul Z.add Z.sub.

Lemma reaches_source : forall adj S k p, reaches adj S k p -> exists x, S x.
Proof. induction 1; eauto. Qed.

Lemma reaches_nonneg : forall adj S k p, reaches adj S k p -> 0 <= k.
Proof. induction 1; lia. Qed.

Lemma reaches_zero : forall adj S p, reaches adj S 0 p -> S p.
Proof. intros adj S p H. inversion H; subst; auto. apply reaches_nonneg in H1. lia. Qed.

Lemma reaches_mono : forall (adj adj' : Z -> Z -> Prop) (S S' : Z -> Prop) k p,
  (forall x y, adj x y -> adj' x y) -> (forall x, S x -> S' x) ->
  reaches adj S k p -> reaches adj' S' k p.
Proof. intros adj adj' S S' k p H1 H2 R. induction R; [apply reaches_start; auto|eapply reaches_step; eauto]. Qed.

Lemma reaches_compose : forall adj S m p n, 0 <= n -> reaches adj (reaches adj S n) m p <-> (0 <= m /\ reaches adj S (n + m) p).
Proof.
  intros adj S m p n Hn. split.
  - intros R. induction R.
    + split; auto. eapply reaches_weaken; [exact H0|lia].
    + destruct IHR as [H0 H1]. split; [lia|]. replace (n + (k + 1)) with (n + k + 1) by lia. eapply reaches_step; eauto.
  - intros [Hm R]. remember (n + m) as t eqn:Et. revert m Hm Et. induction R; intros m Hm Et.
    + constructor; auto. constructor; auto.
    + destruct (Z.eq_dec m 0) as [->|Hm0].
      * constructor; [lia|]. replace n with (k + 1) by lia. eapply reaches_step; eauto.
      * replace m with (m - 1 + 1) by lia. eapply reaches_step; [|exact H]. apply IHR; lia.
Qed.

(** Labels of the result are labels of the image. *)
Lemma dilate_n_values : forall asrt shape f ks kv n per ret, dilatable_n per shape f ks kv -> 0 <= n ->
  dilate_n asrt shape f ks kv n per = Ok ret -> forall l, In l ret -> l = 0 \/ In l f.
Proof.
  intros asrt shape f ks kv n per ret H Hn E l Hl.
  destruct (dilatable_n_list per shape f ks kv n H Hn) as (m & Em & Hm & Eu & HD & Hlab & Ea).
  unfold dilate_n in E. rewrite Em, bind_Ok, Eu in E.
  destruct (dilate_ok asrt _ _ _ _ _ _ HD) as (ret' & n' & E' & _ & L & _ & R & _).
  rewrite E in E'. injection E' as <-.
  destruct H as (_ & (_ & Lf) & _). apply In_zn in Hl. destruct Hl as (p & Hp & <-).
  destruct (Z.eq_dec (zn ret p) 0) as [->|Hz]; [auto|right].
  assert (Pp : pixel shape p) by (unfold pixel; lia).
  destruct (R p Pp Hz) as [_ X]. apply reaches_source in X. destruct X as (x & Hx & <-).
  apply zn_In. unfold pixel in Hx. lia.
Qed.

Lemma dilatable_n_result : forall asrt shape f ks kv n per ret, dilatable_n per shape f ks kv -> 0 <= n ->
  dilate_n asrt shape f ks kv n per = Ok ret -> lenZ ret = lenZ f -> dilatable_n per shape ret ks kv.
Proof.
  intros asrt shape f ks kv n per ret H Hn E L. pose proof (dilate_n_values _ _ _ _ _ _ _ _ H Hn E) as HV.
  destruct H as (H1 & (H2 & H2') & H3 & H4 & H5 & H6 & H7).
  split; auto. split; [split; auto; lia|]. split; auto. split; auto. split; auto. split; auto.
  intros l Hl. destruct (HV l Hl) as [->|X]; [lia|auto].
Qed.

Lemma dilate_zero : forall asrt shape f ks kv per, dilatable_n per shape f ks kv ->
  dilate_n asrt shape f ks kv 0 per = Ok f.
Proof.
  intros asrt shape f ks kv per H. destruct (dilate_n_ok asrt _ _ _ _ 0 _ H ltac:(lia)) as (ret & E & L & R).
  rewrite E. f_equal. pose proof H as (_ & HI & _ & HK & _). destruct HI as [HI HL].
  apply list_ext_zn; [unfold lenZ in *; lia|]. intros p Hp.
  assert (Pp : pixel shape p) by (unfold pixel; lia). specialize (R p Pp).
  destruct (Z.eq_dec (zn f p) 0) as [Z0|Z0].
  - rewrite Z0. destruct (Z.eq_dec (zn ret p) 0); auto. exfalso. apply R in n. apply reaches_zero in n. tauto.
  - destruct (dilatable_n_list per shape f ks kv 0 H ltac:(lia)) as (m & Em & Hm & Eu & HD & _).
    unfold dilate_n in E. rewrite Em, bind_Ok, Eu in E.
    destruct (dilate_body asrt shape f ks kv (repeat 0 (Z.to_nat (m + 1))) per ret) as [_ B]; auto; [split; auto|].
    intros n Hin. apply repeat_spec in Hin. lia.
Qed.

Lemma dilate_compose : forall asrt shape f ks kv n m per, dilatable_n per shape f ks kv -> 0 <= n -> 0 <= m ->
  exists a b c, dilate_n asrt shape f ks kv n per = Ok a /\ dilate_n asrt shape a ks kv m per = Ok b /\
    dilate_n asrt shape f ks kv (n + m) per = Ok c /\
    forall p, pixel shape p -> (zn b p <> 0 <-> zn c p <> 0).
Proof.
  intros asrt shape f ks kv n m per H Hn Hm.
  destruct (dilate_n_ok asrt _ _ _ _ n _ H Hn) as (a & Ea & La & Ra).
  pose proof (dilatable_n_result _ _ _ _ _ _ _ _ H Hn Ea La) as H'.
  destruct (dilate_n_ok asrt _ _ _ _ m _ H' Hm) as (b & Eb & Lb & Rb).
  destruct (dilate_n_ok asrt _ _ _ _ (n + m) _ H ltac:(lia)) as (c & Ec & Lc & Rc).
  exists a, b, c. split; auto. split; auto. split; auto. intros p Hp. rewrite Rb, Rc by auto.
  set (S := fun x => pixel shape x /\ zn f x <> 0).
  assert (X := reaches_compose (kernel_step per shape ks kv) S m p n Hn).
  split; intros Y.
  - apply X. eapply reaches_mono; [| |exact Y]; auto. intros x [Hx Hz]. apply Ra; auto.
  - assert (Y' : reaches (kernel_step per shape ks kv) (reaches (kernel_step per shape ks kv) S n) m p) by (apply X; auto).
    assert (HP : forall x, reaches (kernel_step per shape ks kv) S n x -> pixel shape x).
    { intros x Hx. inversion Hx; subst; [apply H1|apply H1]. }
    eapply reaches_mono; [| |exact Y']; auto. intros x Hx. cbn beta. split; [auto|]. apply Ra; auto.
Qed.

Lemma dilate_mono : forall asrt shape f f' ks kv n m per, dilatable_n per shape f ks kv -> dilatable_n per shape f' ks kv ->
  0 <= n <= m -> (forall p, pixel shape p -> zn f p <> 0 -> zn f' p <> 0) ->
  exists a b, dilate_n asrt shape f ks kv n per = Ok a /\ dilate_n asrt shape f' ks kv m per = Ok b /\
    forall p, pixel shape p -> zn a p <> 0 -> zn b p <> 0.
Proof.
  intros asrt shape f f' ks kv n m per H H' Hn HS.
  destruct (dilate_n_ok asrt _ _ _ _ n _ H ltac:(lia)) as (a & Ea & La & Ra).
  destruct (dilate_n_ok asrt _ _ _ _ m _ H' ltac:(lia)) as (b & Eb & Lb & Rb).
  exists a, b. split; auto. split; auto. intros p Hp. rewrite Ra, Rb by auto. intros X.
  eapply reaches_weaken; [|apply Hn]. eapply reaches_mono; [| |exact X]; auto. intros x [H1 H2]. auto.
Qed.

Lemma moved_weaken : forall shape a d b, inside shape b -> moved false shape a d b -> moved true shape a d b.
Proof.
  induction shape as [|n shape IH]; intros [|x a] [|t d] [|y b]; cbn [moved inside]; try tauto.
  intros [Hy Hb] [-> H]. split; auto. rewrite Z.mod_small; auto.
Qed.

Lemma image_pos : forall shape, Forall (fun n => 1 <= n) shape -> Forall (fun n => 0 < n) shape.
Proof. intros shape H. eapply Forall_impl; [|exact H]. cbn. intros; lia. Qed.

Lemma dilate_periodic_more : forall asrt shape f ks kv n, dilatable_n true shape f ks kv -> 0 <= n ->
  exists a b, dilate_n asrt shape f ks kv n false = Ok a /\ dilate_n asrt shape f ks kv n true = Ok b /\
    forall p, pixel shape p -> zn a p <> 0 -> zn b p <> 0.
Proof.
  intros asrt shape f ks kv n H Hn.
  assert (H' : dilatable_n false shape f ks kv).
  { destruct H as (H1 & H2 & H3 & H4 & H5 & H6 & H7). repeat (split; [assumption|]). split; [discriminate|assumption]. }
  destruct (dilate_n_ok asrt _ _ _ _ n _ H' Hn) as (a & Ea & La & Ra).
  destruct (dilate_n_ok asrt _ _ _ _ n _ H Hn) as (b & Eb & Lb & Rb).
  exists a, b. split; auto. split; auto. intros p Hp. rewrite Ra, Rb by auto.
  apply reaches_mono; auto. intros x y (Hx & Hy & d & Hd & M). split; auto. split; auto. exists d. split; auto.
  apply moved_weaken; auto. apply coords_inside; auto. apply image_pos. apply H.
Qed.

Lemma moved_commute : forall shape a d b e a' b', moved true shape a d b -> moved true shape a e a' -> moved true shape b e b' ->
  moved true shape a' d b'.
Proof.
  induction shape as [|n shape IH]; intros [|x a] [|t d] [|y b] [|u e] [|x' a'] [|y' b']; cbn [moved]; try tauto.
  intros [-> H1] [-> H2] [-> H3]. split; [|eauto].
  destruct (Z.eq_dec n 0) as [->|Hn]; [rewrite !Zmod_0_r; lia|].
  rewrite !Z.add_mod_idemp_l by auto. f_equal. lia.
Qed.

Lemma reaches_map : forall (adj adj' : Z -> Z -> Prop) (S S' P : Z -> Prop) (T : Z -> Z -> Prop),
  (forall x, P x -> exists x', T x x') ->
  (forall x y, adj x y -> P x /\ P y) -> (forall x, S x -> P x) ->
  (forall x x' y y', T x x' -> T y y' -> adj x y -> adj' x' y') ->
  (forall x x', T x x' -> S x -> S' x') ->
  (forall x x' x'', T x x' -> T x x'' -> x' = x'') ->
  forall k p, reaches adj S k p -> forall p', T p p' -> reaches adj' S' k p'.
Proof.
  intros adj adj' S S' P T Htot HP HSP Hadj HS Hfun k p R. induction R; intros p' Hp.
  - constructor; auto. eapply HS; eauto.
  - destruct (HP _ _ H) as [Px _]. destruct (Htot _ Px) as (x' & Hx). eapply reaches_step; eauto.
Qed.

Lemma dilate_roll : forall asrt shape f f' ks kv n d, dilatable_n true shape f ks kv -> dilatable_n true shape f' ks kv ->
  length d = length shape -> 0 <= n -> carried (rolls d shape) f f' ->
  exists a b, dilate_n asrt shape f ks kv n true = Ok a /\ dilate_n asrt shape f' ks kv n true = Ok b /\
    forall p p', rolls d shape p p' -> (zn a p <> 0 <-> zn b p' <> 0).
Proof.
  intros asrt shape f f' ks kv n d H H' Hd Hn HC0. pose proof (carried_zn _ _ _ HC0) as HC.
  destruct (dilate_n_ok asrt _ _ _ _ n _ H Hn) as (a & Ea & La & Ra).
  destruct (dilate_n_ok asrt _ _ _ _ n _ H' Hn) as (b & Eb & Lb & Rb).
  exists a, b. split; auto. split; auto. intros p p' HT.
  destruct (rolls_matching d shape (fun p _ => image_pos shape (proj1 (proj1 (proj2 H)))) Hd) as (T0 & T1 & T2 & T3 & T4).
  destruct (T0 _ _ HT) as [Pp Pp']. rewrite Ra, Rb by auto.
  pose proof (image_pos shape (proj1 (proj1 (proj2 H)))) as HP.
  assert (K : forall x x' y y', rolls d shape x x' -> rolls d shape y y' -> kernel_step true shape ks kv x y ->
                kernel_step true shape ks kv x' y').
  { intros x x' y y' (_ & A1 & A2) (_ & B1 & B2) (C1 & C2 & e & C3 & C4). split; auto. split; auto. exists e. split; auto.
    eapply moved_commute; eauto. }
  assert (K' : forall x x' y y', rolls d shape x x' -> rolls d shape y y' -> kernel_step true shape ks kv x' y' ->
                kernel_step true shape ks kv x y).
  { intros x x' y y' (A0 & A1 & A2) (B0 & B1 & B2) (C1 & C2 & e & C3 & C4). split; auto. split; auto. exists e. split; auto.
    apply moved_sym in A2; auto using coords_inside. apply moved_sym in B2; auto using coords_inside.
    eapply moved_commute; eauto. }
  split; intros X.
  - eapply (reaches_map _ _ _ _ (pixel shape) (rolls d shape)); try exact X; auto.
    + intros x y (A1 & A2 & _); auto.
    + intros x [A1 _]; auto.
    + intros x x' A [B1 B2]. split; [apply (T0 _ _ A)|]. rewrite (HC _ _ A). auto.
  - eapply (reaches_map _ _ _ _ (pixel shape) (fun a b => rolls d shape b a)); try exact X; auto.
    + intros x y (A1 & A2 & _); auto.
    + intros x [A1 _]; auto.
    + intros x x' y y' A B. eapply K'; eauto.
    + intros x x' A [B1 B2]. split; [apply (T0 _ _ A)|]. rewrite <- (HC _ _ A). auto.
    + intros x x' x'' A B. eapply T4; eauto.
Qed.

(** ** The default kernel in rank 3 *)

Definition nearest3 : list Z := [0;1;0; 1;1;1; 0;1;0;  1;1;1; 1;1;1; 1;1;1;  0;1;0; 1;1;1; 0;1;0].

Lemma nearest3_offset : forall d, kernel_offset [3;3;3] nearest3 d <->
  exists d0 d1 d2, d = [d0; d1; d2] /\ -1 <= d0 <= 1 /\ -1 <= d1 <= 1 /\ -1 <= d2 <= 1 /\ (d0 = 0 \/ d1 = 0 \/ d2 = 0).
Proof.
  intros d. split.
  - intros (r & Hr & Hz & M). unfold pixel in Hr. change (zprod [3;3;3]) with 27 in Hr.
    assert (HR : In r (map Z.of_nat (seq 0 27))).
    { apply in_map_iff. exists (Z.to_nat r). split; [lia|]. apply in_seq. lia. }
    change (anchor [3;3;3]) with [1;1;1] in M.
    destruct d as [|x [|y [|z [|]]]]; try (cbn [coords moved] in M; tauto).
    exists x, y, z. split; auto.
    cbn [map seq Z.of_nat Pos.of_succ_nat Pos.succ] in HR.
    repeat (destruct HR as [<-|HR]; [first [discriminate Hz|
      vm_compute coords in M; cbn [moved] in M; destruct M as (M1 & M2 & M3 & _); lia]|]). destruct HR.
  - intros (x & y & z & -> & Hx & Hy & Hz & H0).
    exists ((x + 1) * 9 + (y + 1) * 3 + (z + 1)).
    assert (Ex : x = -1 \/ x = 0 \/ x = 1) by lia. assert (Ey : y = -1 \/ y = 0 \/ y = 1) by lia.
    assert (Ez : z = -1 \/ z = 0 \/ z = 1) by lia.
    destruct Ex as [->|[->| ->]]; destruct Ey as [->|[->| ->]]; destruct Ez as [->|[->| ->]];
      try (exfalso; lia); (split; [unfold pixel; change (zprod [3;3;3]) with 27; lia|split; [reflexivity|]]);
      vm_compute; auto.
Qed.

Lemma dilate_default3 : forall asrt shape f n per, length shape = 3%nat -> image shape f ->
  (forall l, In l f -> 0 <= l < 2 ^ 62) -> 0 <= n ->
  exists ret, dilate_default_n asrt shape f n per = Ok ret /\ lenZ ret = lenZ f /\
  forall p, pixel shape p -> (zn ret p <> 0 <->
    reaches (face_or_edge per shape) (fun x => pixel shape x /\ zn f x <> 0) n p).
Proof.
  intros asrt shape f n per HL HI Hl Hn.
  destruct (dilate_n_ok asrt shape f [3;3;3] nearest3 n per) as (ret & E & L & R); auto.
  { unfold dilatable_n. split; [lia|]. split; auto. split; [auto|].
    split; [split; [repeat constructor; lia|reflexivity]|]. split; [intros k Hk; unfold nearest3 in Hk; cbn [In] in Hk; clear -Hk; intuition lia|]. split; auto.
    intros _. destruct HI as [HI _]. clear -HI HL. destruct shape as [|a [|b [|c [|]]]]; try discriminate HL.
    inversion HI as [|? ? A HI1]; subst. inversion HI1 as [|? ? B HI2]; subst. inversion HI2 as [|? ? C _]; subst.
    cbn [half_fits]. change (3 / 2) with 1. auto. }
  exists ret. split; [|split; auto].
  - unfold dilate_default_n, dilate_default, dilate_n in *. apply bind_ok in E. destruct E as (m & Em & E).
    rewrite Em, bind_Ok, HL. assert (EN : nearest asrt 3 = Ok ([3;3;3], nearest3)) by (destruct asrt; reflexivity).
    rewrite EN, bind_Ok. exact E.
  - intros p Hp. rewrite (R p Hp).
    split; apply reaches_mono; auto; intros x y; unfold kernel_step, face_or_edge.
    + intros (H1 & H2 & d & Hd & M). split; auto. split; auto. apply nearest3_offset in Hd.
      destruct Hd as (d0 & d1 & d2 & -> & A & B & C & D). exists d0, d1, d2. auto.
    + intros (H1 & H2 & d0 & d1 & d2 & A & B & C & D & M). split; auto. split; auto. exists [d0; d1; d2]. split; auto.
      apply nearest3_offset. exists d0, d1, d2. auto.
Qed.
