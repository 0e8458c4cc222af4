(** * ClusterAny: the partition for any kernel (proofs only) *)

From Coq Require Import ZArith List Bool Lia Sorted.
From Verif Require Import Base BaseLemmas Cluster ClusterInv ClusterRefine SpecCluster ClusterAbs ClusterGeom ClusterRun ClusterMain.
Import ListNotations.
Open Scope Z_scope.

Definition PR (g : cfg) (R : Z -> Z -> Prop) (rp : list Z) : Prop :=
  (forall x y, R x y -> zn rp x = zn rp y) /\
  (forall x y, lab_of g rp x -> lab_of g rp y -> zn rp x = zn rp y -> linked R (lab_of g rp) x y).

Definition grow (g : cfg) (rp : list Z) (R : Z -> Z -> Prop) (p x y : Z) : Prop :=
  R x y \/ (x = p /\ In y (nb g p) /\ lab_of g rp y) \/ (y = p /\ In x (nb g p) /\ lab_of g rp x).

Lemma PR_step : forall g (R : Z -> Z -> Prop) a p, nb_ok g -> AI (zprod (g_shape g)) a -> 0 <= p < zprod (g_shape g) ->
  (forall x y, R x y -> R y x) -> (forall x y, R x y -> lab_of g (fst a) x /\ lab_of g (fst a) y) ->
  zn (fst a) p = 0 -> PR g R (fst a) -> PR g (grow g (fst a) R p) (fst (apoint g a p)).
Proof.
  intros g R [rp new] p Hok HA Hp Rs Rl E0 [P1 P2].
  pose proof (fun q => support_step g (rp, new) p q Hok HA Hp) as Hsup.
  unfold apoint in *; cbn [fst snd] in *.
  replace (zn rp p =? 0) with true in * by lia; cbn [fst snd] in *.
  pose proof (ai_len _ _ HA) as Hl. pose proof (ai_rng _ _ HA) as Hr.
  pose proof (near_pos _ _ (nb g p) HA (fun c => nb_range g p c Hok Hp)) as HN.
  cbn [fst snd] in *.
  set (rp' := a_rep (nb g p) rp new p) in *.
  assert (Hlab : forall x, lab_of g rp' x <-> (lab_of g rp x \/ x = p)).
  { intros x. unfold lab_of. split.
    - intros [Hx Hn]. apply Hsup in Hn; auto. destruct Hn; auto.
    - intros [[Hx Hn]| ->]; (split; [auto|]); apply Hsup; auto. }
  assert (Hmono : forall x y, linked R (lab_of g rp) x y -> linked (grow g rp R p) (lab_of g rp') x y).
  { intros x y. apply linked_mono; [intros; left; auto|]. intros z Hz. apply Hlab; auto. }
  assert (Hpp : lab_of g rp' p) by (apply Hlab; auto).
  assert (Hnear : forall c, In c (nb g p) -> lab_of g rp c -> In (zn rp c) (near (nb g p) rp)).
  { intros c Hc [_ Hn]. apply near_In. split; auto. exists c; auto. }
  assert (Hnp : forall x, lab_of g rp x -> x <> p) by (intros x [_ Hx] ->; lia).
  assert (Gs : forall x y, grow g rp R p x y -> grow g rp R p y x).
  { intros x y [H|[H|H]]; [left; auto|right; right; auto|right; left; auto]. }
  destruct (near (nb g p) rp) as [|c0 C0] eqn:EN.
  - assert (Z1 : forall q, 0 <= q < zprod (g_shape g) -> zn rp' q = if p =? q then new else zn rp q).
    { intros q Hq. destruct (a_rep_zn (nb g p) rp new p q) as [[E1 E2]|[E1 E2]]; try lia; auto. congruence. }
    split.
    + intros x y [H|[(-> & H1 & H2)|(-> & H1 & H2)]].
      * destruct (Rl _ _ H) as [Hx Hy]. rewrite !Z1 by (apply Hx || apply Hy).
        pose proof (Hnp x Hx). pose proof (Hnp y Hy).
        replace (p =? x) with false by lia. replace (p =? y) with false by lia. auto.
      * exfalso. apply (Hnear y) in H1; auto.
      * exfalso. apply (Hnear x) in H1; auto.
    + intros x y Hx Hy. apply Hlab in Hx. apply Hlab in Hy.
      destruct Hx as [Hx| ->], Hy as [Hy| ->].
      * rewrite !Z1 by (apply Hx || apply Hy).
        pose proof (Hnp x Hx). pose proof (Hnp y Hy).
        replace (p =? x) with false by lia. replace (p =? y) with false by lia. auto.
      * rewrite !Z1 by (apply Hx || auto). rewrite Z.eqb_refl. pose proof (Hnp x Hx).
        replace (p =? x) with false by lia. destruct Hx as [Hx _]. specialize (Hr x Hx). lia.
      * rewrite !Z1 by (apply Hy || auto). rewrite Z.eqb_refl. pose proof (Hnp y Hy).
        replace (p =? y) with false by lia. destruct Hy as [Hy _]. specialize (Hr y Hy). lia.
      * intros _. constructor; auto.
  - rewrite <- EN in *. assert (HNE : near (nb g p) rp <> []) by congruence. clear EN c0 C0.
    set (C := near (nb g p) rp) in *. set (m := zmin C) in *.
    assert (Z1 : forall q, 0 <= q < zprod (g_shape g) -> zn rp' q =
        if p =? q then m else if existsb (Z.eqb (zn rp q)) C then m else zn rp q).
    { intros q Hq. destruct (a_rep_zn (nb g p) rp new p q) as [[E1 E2]|[E1 E2]]; try lia; [exfalso; apply HNE; exact E1|exact E2]. }
    assert (Hm : In m C) by (apply zmin_spec; auto).
    assert (Hjoin : forall y, In y (nb g p) -> lab_of g rp y -> zn rp' p = zn rp' y).
    { intros y Hin Hy. rewrite !Z1 by (apply Hy || auto). rewrite Z.eqb_refl. pose proof (Hnp y Hy).
      replace (p =? y) with false by lia.
      apply (Hnear y) in Hin; auto. apply existsb_eqb in Hin. rewrite Hin. auto. }
    split.
    + intros x y [H|[(-> & H1 & H2)|(-> & H1 & H2)]]; [|apply Hjoin; auto|symmetry; apply Hjoin; auto].
      destruct (Rl _ _ H) as [Hx Hy]. rewrite !Z1 by (apply Hx || apply Hy).
      pose proof (Hnp x Hx). pose proof (Hnp y Hy).
      replace (p =? x) with false by lia. replace (p =? y) with false by lia. rewrite (P1 x y); auto.
    + intros x y Hx Hy.
      assert (Hto : forall z, lab_of g rp' z -> zn rp' z = m -> linked (grow g rp R p) (lab_of g rp') z p).
      { intros z Hz Ez. apply Hlab in Hz. destruct Hz as [Hz| ->]; [|constructor; auto].
        assert (HzC : In (zn rp z) C).
        { rewrite Z1 in Ez by apply Hz. pose proof (Hnp z Hz).
          replace (p =? z) with false in Ez by lia.
          destruct (existsb (Z.eqb (zn rp z)) C) eqn:Ex; [apply existsb_eqb; auto|].
          rewrite Ez; auto. }
        apply near_In in HzC. destruct HzC as (_ & c & Hc & Ec).
        assert (Hcl : lab_of g rp c).
        { split; [apply (nb_range g p); auto|]. rewrite Ec. apply Hz. }
        eapply linked_trans; [apply Hmono; apply P2; [exact Hz|exact Hcl|congruence]|].
        econstructor; [apply Hlab; auto| |constructor; auto]. right; right; auto. }
      intros Exy. destruct (Z.eq_dec (zn rp' x) m) as [Em|Em].
      * eapply linked_trans; [apply (Hto x); auto|].
        apply linked_sym; auto. apply (Hto y); auto; congruence.
      * apply Hlab in Hx. apply Hlab in Hy.
        destruct Hx as [Hx| ->]; [|rewrite Z1, Z.eqb_refl in Em by auto; congruence].
        destruct Hy as [Hy| ->]; [|rewrite Exy, Z1, Z.eqb_refl in Em by auto; congruence].
        apply Hmono. apply P2; auto.
        pose proof Em as Em'. rewrite Exy in Em'.
        rewrite Z1 in Em by apply Hx. rewrite Z1 in Em' by apply Hy. rewrite !Z1 in Exy by (apply Hx || apply Hy).
        pose proof (Hnp x Hx). pose proof (Hnp y Hy).
        replace (p =? x) with false in * by lia. replace (p =? y) with false in * by lia.
        destruct (existsb _ C); [congruence|]. destruct (existsb _ C); congruence.
Qed.

Definition RL (g : cfg) (l : list Z) (x y : Z) : Prop :=
  (In y (nb g x) /\ earlier l y x) \/ (In x (nb g y) /\ earlier l x y).

Lemma PR_ext : forall g (R R' : Z -> Z -> Prop) rp, (forall x y, R x y <-> R' x y) -> PR g R rp -> PR g R' rp.
Proof.
  intros g R R' rp H [P1 P2]. split; [intros; apply P1, H; auto|].
  intros x y Hx Hy E. eapply linked_mono; [| |apply P2; eauto]; auto. intros; apply H; auto.
Qed.

Lemma earlier_In : forall l q p, earlier l q p -> In q l /\ In p l.
Proof. intros l q p (l1 & l2 & -> & _ & H). rewrite !in_app_iff. simpl. auto. Qed.

Lemma earlier_snoc : forall l a q p,
  earlier (l ++ [a]) q p <-> earlier l q p \/ (p = a /\ ~ In a l /\ In q l).
Proof.
  intros l a q p. split.
  - intros (l1 & l2 & E & Hn & Hq).
    destruct l2 as [|z0 l2] using rev_ind; [|clear IHl2].
    + apply app_inj_tail in E. destruct E as [-> ->]. right; auto.
    + rewrite app_comm_cons, app_assoc in E. apply app_inj_tail in E. destruct E as [-> ->].
      left. exists l1, l2. auto.
  - intros [(l1 & l2 & -> & Hn & Hq)|(-> & Hn & Hq)].
    + exists l1, (l2 ++ [a]). rewrite <- app_assoc. auto.
    + exists l, []. auto.
Qed.

Lemma PR_snoc : forall g l a p, nb_ok g -> AI (zprod (g_shape g)) a -> 0 <= p < zprod (g_shape g) ->
  (forall x, lab_of g (fst a) x <-> In x l) -> PR g (RL g l) (fst a) ->
  PR g (RL g (l ++ [p])) (fst (apoint g a p)).
Proof.
  intros g l a p Hok HA Hp HL HP.
  destruct (Z.eq_dec (zn (fst a) p) 0) as [E|E].
  - assert (Hn : ~ In p l) by (intros H; apply HL in H; apply H; auto).
    apply (PR_ext g (grow g (fst a) (RL g l) p)).
    + intros x y. unfold grow, RL. rewrite !earlier_snoc, !HL.
      split; [intros [[[]|[]]|[(-> & A & B)|(-> & A & B)]]; tauto|].
      intros [[A [B|(-> & _ & B)]]|[A [B|(-> & _ & B)]]]; tauto.
    + apply PR_step; auto.
      * intros x y [H|H]; [right|left]; auto.
      * intros x y [[_ H]|[_ H]]; apply earlier_In in H; split; apply HL; tauto.
  - assert (Hn : In p l) by (apply HL; split; auto).
    unfold apoint. replace (zn (fst a) p =? 0) with false by lia.
    apply (PR_ext g (RL g l)); auto. intros x y. unfold RL. rewrite !earlier_snoc. tauto.
Qed.

Lemma PR_steps : forall g k l a, nb_ok g -> AI (zprod (g_shape g)) a ->
  (forall p, In p k -> 0 <= p < zprod (g_shape g)) ->
  (forall x, lab_of g (fst a) x <-> In x l) -> PR g (RL g l) (fst a) ->
  (forall x, lab_of g (fst (apoints g k a)) x <-> In x (l ++ k)) /\
  PR g (RL g (l ++ k)) (fst (apoints g k a)).
Proof.
  intros g k. induction k as [|p k IH]; intros l a Hok HA Hk HL HP; cbn [apoints fold_left].
  - rewrite app_nil_r. auto.
  - assert (Hp : 0 <= p < zprod (g_shape g)) by (apply Hk; simpl; auto).
    fold (apoints g k (apoint g a p)).
    replace (l ++ p :: k) with ((l ++ [p]) ++ k) by (rewrite <- app_assoc; auto).
    apply IH; auto using ai_step.
    + intros; apply Hk; simpl; auto.
    + intros x. unfold lab_of. rewrite in_app_iff. simpl. rewrite <- HL. unfold lab_of.
      split; [intros [H1 H2]; apply support_step in H2; auto; destruct H2 as [H2|H2]; [left; auto|right; left; auto]|].
      intros [[H1 H2]|[ ->|[]]]; (split; [auto|]); apply support_step; auto.
    + apply PR_snoc; auto.
Qed.

Lemma PR_relabel : forall g (R : Z -> Z -> Prop) r1 r2,
  (forall x y, R x y -> lab_of g r1 x /\ lab_of g r1 y) ->
  (forall p q, pixel (g_shape g) p -> pixel (g_shape g) q -> (zn r1 p = zn r1 q <-> zn r2 p = zn r2 q)) ->
  (forall p, pixel (g_shape g) p -> (zn r1 p = 0 <-> zn r2 p = 0)) -> PR g R r1 -> PR g R r2.
Proof.
  intros g R r1 r2 HR He Hz [P1 P2].
  assert (HL : forall x, lab_of g r2 x <-> lab_of g r1 x).
  { intros x. unfold lab_of. split; intros [A B]; split; auto; pose proof (Hz x A); tauto. }
  split.
  - intros x y H. destruct (HR _ _ H) as [Hx Hy]. apply He; [apply Hx|apply Hy|]. apply P1; auto.
  - intros x y Hx Hy E. apply (linked_mono R R (lab_of g r1)); auto; [intros; apply HL; auto|].
    apply P2; try (apply HL; auto). apply He; [apply Hx|apply Hy|auto].
Qed.

Definition pushed (l : list Z) (o : op) : list Z := match o with Reset => [] | _ => l ++ points_of o end.

Lemma any_step : forall asrt g s o l, wf g -> Q (zprod (g_shape g)) s -> legal (g_shape g) o ->
  (forall x, lab_of g (c_label s) x <-> In x l) -> PR g (RL g l) (c_label s) ->
  exists s' out, step asrt g s o = Ok (s', out) /\ Q (zprod (g_shape g)) s' /\
    (forall x, lab_of g (c_label s') x <-> In x (pushed l o)) /\ PR g (RL g (pushed l o)) (c_label s').
Proof.
  intros asrt g s o l Hwf HQ Hl HL HP. pose proof (wf_nb_ok g Hwf) as Hok.
  pose proof (Q_AI _ _ HQ) as HA.
  assert (ADD : is_add o -> exists s' out, step asrt g s o = Ok (s', out) /\ Q (zprod (g_shape g)) s' /\
    (forall x, lab_of g (c_label s') x <-> In x (l ++ points_of o)) /\ PR g (RL g (l ++ points_of o)) (c_label s')).
  { intros Ha. destruct (adds_ok asrt g [o] s Hwf HQ) as (s' & outs & E & HQ' & R); auto.
    cbn [run_from flat_map] in E, R. rewrite app_nil_r in R.
    destruct (step asrt g s o) as [[s1 out]| | |] eqn:E1; try discriminate.
    cbn [bind] in E. injection E as <- <-. exists s1, out. split; auto. split; auto.
    replace (c_label s1) with (fst (apoints g (points_of o) (c_label s, c_new s))) by (rewrite <- R; auto).
    apply PR_steps; auto.
    intros p Hp. destruct o as [sh img|l'|l'| |]; cbn [legal points_of is_add] in *; [| | |tauto|tauto].
    - apply filter_In in Hp. destruct Hp as [Hp _]. apply in_map_iff in Hp. destruct Hp as (k & <- & Hk).
      apply in_seq in Hk. destruct Hl as [-> Hl]. unfold lenZ in Hl. lia.
    - apply Hl; auto.
    - apply Hl; auto. }
  destruct o as [sh img|l'|l'| |]; cbn [pushed]; try (apply ADD; exact I).
  - cbn [step points_of]. rewrite app_nil_r. destruct (prune_ok _ _ HQ) as (s' & E & HQ' & L & _). rewrite E, bind_Ok.
    exists s', []. split; auto. split; auto.
    assert (Z1 : forall p, pixel (g_shape g) p -> zn (c_label s') p = rank (c_label s) (zn (c_label s) p)).
    { intros p Hp. rewrite L. apply zn_map. rewrite (iv_len _ _ (proj1 HQ)). exact Hp. }
    assert (Z2 : forall p, pixel (g_shape g) p -> (zn (c_label s) p = 0 <-> zn (c_label s') p = 0)).
    { intros p Hp. rewrite Z1 by auto. pose proof (rank_zero_iff _ _ p HA Hp). cbn [fst] in *. tauto. }
    split.
    + intros x. rewrite <- HL. unfold lab_of. split; intros [A B]; split; auto; pose proof (Z2 x A); tauto.
    + apply (PR_relabel g _ (c_label s)); auto.
      * intros x y [[_ H]|[_ H]]; apply earlier_In in H; split; apply HL; tauto.
      * intros p q Hp Hq. rewrite !Z1 by auto. pose proof (rank_eq_iff _ _ p q HA Hp Hq). cbn [fst] in *. tauto.
  - cbn [step]. rewrite (reset_init g s Hwf HQ). exists (init g), []. split; auto. split; [apply Q_init; auto|].
    split.
    + intros x. unfold lab_of. rewrite init_zero. simpl. tauto.
    + split; [intros x y _; rewrite !init_zero; auto|]. intros x y [_ H]. rewrite init_zero in H. tauto.
Qed.

Lemma any_run : forall asrt g ops s l, wf g -> Q (zprod (g_shape g)) s -> Forall (legal (g_shape g)) ops ->
  (forall x, lab_of g (c_label s) x <-> In x l) -> PR g (RL g l) (c_label s) ->
  exists s' outs, run_from asrt g s ops = Ok (s', outs) /\
    (forall x, lab_of g (c_label s') x <-> In x (fold_left pushed ops l)) /\ PR g (RL g (fold_left pushed ops l)) (c_label s').
Proof.
  intros asrt g ops. induction ops as [|o ops IH]; intros s l Hwf HQ Hl HL HP.
  - exists s, []. cbn. auto.
  - inversion Hl; subst. destruct (any_step asrt g s o l Hwf HQ H1 HL HP) as (s1 & out & E & HQ1 & HL1 & HP1).
    destruct (IH s1 (pushed l o) Hwf HQ1 H2 HL1 HP1) as (s' & outs & E' & HL' & HP').
    exists s', (out :: outs). cbn [run_from fold_left]. rewrite E, bind_Ok, E', bind_Ok. auto.
Qed.

Lemma earlier_neq : forall l q p, earlier l q p -> q <> p.
Proof. intros l q p (l1 & l2 & _ & Hn & Hq) ->. auto. Qed.

Lemma any_partition : forall asrt g ops, wf g -> in_range g -> Forall (legal (g_shape g)) ops ->
  exists s outs, run asrt g ops = Ok (s, outs) /\
    forall p q, pixel (g_shape g) p -> pixel (g_shape g) q ->
      (zn (c_label s) p <> 0 <-> In p (sequence ops)) /\
      (In p (sequence ops) -> In q (sequence ops) ->
        (zn (c_label s) p = zn (c_label s) q <->
         linked (joined (g_per g) (g_shape g) (g_dx g) (sequence ops)) (fun x => In x (sequence ops)) p q)).
Proof.
  intros asrt g ops Hwf Hr Hl.
  destruct (any_run asrt g ops (init g) [] Hwf (Q_init g Hwf) Hl) as (s & outs & E & HL & HP).
  { intros x. unfold lab_of. rewrite init_zero. simpl. tauto. }
  { split; [intros x y _; rewrite !init_zero; auto|]. intros x y [_ H]. rewrite init_zero in H. tauto. }
  exists s, outs. split; auto. change (fold_left pushed ops []) with (sequence ops) in *.
  intros p q Hp Hq. split.
  - rewrite <- HL. unfold lab_of. unfold pixel in Hp. tauto.
  - intros Ip Iq.
    assert (J : forall x y, In x (sequence ops) -> In y (sequence ops) ->
       (RL g (sequence ops) x y <-> joined (g_per g) (g_shape g) (g_dx g) (sequence ops) x y)).
    { intros x y Hx Hy. apply HL in Hx. apply HL in Hy. destruct Hx as [Hx _], Hy as [Hy _]. unfold RL, joined.
      split; intros [[A B]|[A B]]; [left|right|left|right]; (split; [|auto]); apply (nb_spec g); auto;
        apply earlier_neq in B; congruence. }
    destruct HP as [P1 P2]. split.
    + intros Eq. assert (X : linked (RL g (sequence ops)) (lab_of g (c_label s)) p q) by (apply P2; auto; apply HL; auto).
      eapply linked_mono; [| |exact X]; [|intros; apply HL; auto].
      intros x y Hx Hy. apply J; apply HL; auto.
    + intros X. clear Ip Iq Hp Hq. induction X as [x Hx|x y z Hx Hxy X IH]; auto.
      rewrite <- IH. apply P1. apply J; auto. exact (linked_src _ _ _ _ X).
Qed.
