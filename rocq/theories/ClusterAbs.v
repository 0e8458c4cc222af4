(** * ClusterAbs: properties of the abstract labelling step (proofs only). *)

From Coq Require Import ZArith List Bool Lia Sorted.
From Verif Require Import Base BaseLemmas Cluster ClusterInv ClusterRefine SpecCluster.
Import ListNotations.
Open Scope Z_scope.

(** ** Links *)

Lemma linked_src : forall adj A p q, linked adj A p q -> A p.
Proof. destruct 1; auto. Qed.

Lemma linked_dst : forall adj A p q, linked adj A p q -> A q.
Proof. induction 1; auto. Qed.

Lemma linked_trans : forall adj A p q r, linked adj A p q -> linked adj A q r -> linked adj A p r.
Proof. induction 1; intros; auto. econstructor; eauto. Qed.

Lemma linked_mono : forall (adj adj' : Z -> Z -> Prop) (A A' : Z -> Prop) p q,
  (forall x y, A x -> A y -> adj x y -> adj' x y) ->
  (forall x, A x -> A' x) -> linked adj A p q -> linked adj' A' p q.
Proof.
  intros adj adj' A A' p q H1 H2 HL. induction HL; [constructor; auto|].
  econstructor; [auto| |apply IHHL]. apply H1; auto. eapply linked_src; eauto.
Qed.

Lemma linked_sym : forall (adj : Z -> Z -> Prop) (A : Z -> Prop) p q,
  (forall x y, A x -> A y -> adj x y -> adj y x) -> linked adj A p q -> linked adj A q p.
Proof.
  intros adj A p q Hs HL. induction HL; [constructor; auto|].
  eapply linked_trans; [exact IHHL|]. pose proof (linked_src _ _ _ _ HL).
  apply linked_step with (q := p); [auto|apply Hs; auto|constructor; auto].
Qed.

(** Self-adjacency is irrelevant. *)
Lemma linked_irrefl : forall (adj adj' : Z -> Z -> Prop) (A : Z -> Prop) p q,
  (forall x y, A x -> A y -> x <> y -> adj x y -> adj' x y) ->
  linked adj A p q -> linked adj' A p q.
Proof.
  intros adj adj' A p q H HL. induction HL; [constructor; auto|].
  destruct (Z.eq_dec p q); [subst; auto|].
  econstructor; [auto| |exact IHHL]. apply H; auto. eapply linked_src; eauto.
Qed.

(** ** The abstract step *)

Definition apoint (g : cfg) (a : list Z * Z) (p : Z) : list Z * Z :=
  if zn (fst a) p =? 0
  then (a_rep (nb g p) (fst a) (snd a) p, a_new (nb g p) (fst a) (snd a))
  else a.

Definition apoints (g : cfg) (l : list Z) (a : list Z * Z) : list Z * Z :=
  fold_left (apoint g) l a.

Lemma a_rep_len : forall nbs rp new p, lenZ (a_rep nbs rp new p) = lenZ rp.
Proof.
  intros. unfold a_rep. destruct (near nbs rp); rewrite upd_lenZ; auto.
  unfold lenZ. now rewrite map_length.
Qed.

Lemma a_rep_zn : forall nbs rp new p q, 0 <= p < lenZ rp -> 0 <= q < lenZ rp ->
  (near nbs rp = [] /\ zn (a_rep nbs rp new p) q = if p =? q then new else zn rp q) \/
  (near nbs rp <> [] /\ zn (a_rep nbs rp new p) q =
     if p =? q then zmin (near nbs rp)
     else if existsb (Z.eqb (zn rp q)) (near nbs rp) then zmin (near nbs rp) else zn rp q).
Proof.
  intros nbs rp new p q Hp Hq. unfold a_rep. destruct (near nbs rp) as [|c C] eqn:E.
  - left. split; auto. apply zn_upd; lia.
  - right. split; [discriminate|]. rewrite zn_upd; try lia.
    + destruct (p =? q); auto. rewrite zn_map; auto.
    + unfold lenZ. rewrite map_length. exact Hp.
Qed.

Record AI (N : Z) (a : list Z * Z) : Prop := mkAI {
  ai_len : lenZ (fst a) = N;
  ai_new : 1 <= snd a;
  ai_rng : forall q, 0 <= q < N -> 0 <= zn (fst a) q < snd a
}.

Lemma near_pos : forall N a nbs, AI N a -> (forall c, In c nbs -> 0 <= c < N) ->
  forall r, In r (near nbs (fst a)) -> 1 <= r < snd a.
Proof.
  intros N a nbs HA Hn r Hr. apply near_In in Hr. destruct Hr as (H0 & c & Hc & E).
  pose proof (ai_rng _ _ HA c (Hn c Hc)). lia.
Qed.

Lemma ai_step : forall g a p, nb_ok g -> AI (zprod (g_shape g)) a ->
  0 <= p < zprod (g_shape g) -> AI (zprod (g_shape g)) (apoint g a p).
Proof.
  intros g [rp new] p Hok HA Hp. unfold apoint; cbn [fst snd].
  destruct (zn rp p =? 0) eqn:E0; auto.
  pose proof (ai_len _ _ HA) as Hl. pose proof (ai_new _ _ HA) as Hn.
  cbn [fst snd] in *. pose proof (near_pos _ _ (nb g p) HA (fun c => nb_range g p c Hok Hp)) as HN.
  cbn [fst snd] in *.
  assert (Hmin : near (nb g p) rp <> [] -> 1 <= zmin (near (nb g p) rp) < new).
  { intros H. apply HN. apply zmin_spec; auto. }
  constructor; cbn [fst snd].
  - now rewrite a_rep_len.
  - unfold a_new. destruct (near _ _); lia.
  - intros q Hq. pose proof (ai_rng _ _ HA q Hq) as Hr. cbn [fst snd] in Hr.
    destruct (a_rep_zn (nb g p) rp new p q) as [[E1 E2]|[E1 E2]]; try lia; rewrite E2; unfold a_new.
    + rewrite E1. destruct (p =? q); lia.
    + destruct (near (nb g p) rp) eqn:En; [congruence|]. rewrite <- En in *.
      specialize (Hmin E1). destruct (p =? q); [lia|]. destruct (existsb _ _); lia.
Qed.

Lemma ai_steps : forall g l a, nb_ok g -> AI (zprod (g_shape g)) a ->
  (forall p, In p l -> 0 <= p < zprod (g_shape g)) -> AI (zprod (g_shape g)) (apoints g l a).
Proof.
  induction l; intros; cbn [apoints fold_left]; auto.
  apply IHl; auto; [apply ai_step; auto; apply H1; simpl; auto|].
  intros; apply H1; simpl; auto.
Qed.

(** Support: exactly the labelled pixels plus the new one. *)
Lemma support_step : forall g a p q, nb_ok g -> AI (zprod (g_shape g)) a ->
  0 <= p < zprod (g_shape g) -> 0 <= q < zprod (g_shape g) ->
  (zn (fst (apoint g a p)) q <> 0 <-> zn (fst a) q <> 0 \/ q = p).
Proof.
  intros g [rp new] p q Hok HA Hp Hq. unfold apoint; cbn [fst snd].
  pose proof (ai_len _ _ HA) as Hl. pose proof (ai_new _ _ HA) as Hn.
  pose proof (near_pos _ _ (nb g p) HA (fun c => nb_range g p c Hok Hp)) as HN.
  cbn [fst snd] in *.
  destruct (zn rp p =? 0) eqn:E0; cbn [fst snd].
  - assert (Hmin : near (nb g p) rp <> [] -> 1 <= zmin (near (nb g p) rp) < new).
    { intros H. apply HN. apply zmin_spec; auto. }
    destruct (a_rep_zn (nb g p) rp new p q) as [[E1 E2]|[E1 E2]]; try lia; rewrite E2.
    + destruct (p =? q) eqn:E; lia.
    + specialize (Hmin E1). destruct (p =? q) eqn:E; [lia|].
      destruct (existsb _ _) eqn:Ex; [|lia].
      apply existsb_eqb in Ex. apply HN in Ex. lia.
  - split; [auto|]. intros [H| ->]; auto. lia.
Qed.

Lemma support_steps : forall g l a q, nb_ok g -> AI (zprod (g_shape g)) a ->
  (forall p, In p l -> 0 <= p < zprod (g_shape g)) -> 0 <= q < zprod (g_shape g) ->
  (zn (fst (apoints g l a)) q <> 0 <-> zn (fst a) q <> 0 \/ In q l).
Proof.
  induction l as [|p l IH]; intros a q Hok HA Hl Hq; cbn [apoints fold_left]; [simpl; tauto|].
  assert (Hp : 0 <= p < zprod (g_shape g)) by (apply Hl; simpl; auto).
  fold (apoints g l (apoint g a p)). rewrite IH; auto using ai_step.
  - rewrite support_step; auto. simpl. intuition.
  - intros; apply Hl; simpl; auto.
Qed.

(** ** Partition *)

Definition adj_of (g : cfg) : Z -> Z -> Prop := fun p q => In q (nb g p).
Definition lab_of (g : cfg) (rp : list Z) : Z -> Prop :=
  fun p => 0 <= p < zprod (g_shape g) /\ zn rp p <> 0.

Definition nb_sym (g : cfg) : Prop :=
  forall p q, 0 <= p < zprod (g_shape g) -> 0 <= q < zprod (g_shape g) -> p <> q ->
    In q (nb g p) -> In p (nb g q).

Definition PI (g : cfg) (rp : list Z) : Prop :=
  (forall x y, lab_of g rp x -> lab_of g rp y -> In y (nb g x) -> zn rp x = zn rp y) /\
  (forall x y, lab_of g rp x -> lab_of g rp y -> zn rp x = zn rp y ->
     linked (adj_of g) (lab_of g rp) x y).

Lemma PI_iff : forall g rp x y, PI g rp -> lab_of g rp x -> lab_of g rp y ->
  (zn rp x = zn rp y <-> linked (adj_of g) (lab_of g rp) x y).
Proof.
  intros g rp x y [H1 H2] Hx Hy. split; [auto|].
  intros HL. clear Hx Hy. induction HL; auto.
  pose proof (linked_src _ _ _ _ HL). rewrite (H1 p q); auto.
Qed.

Lemma PI_step : forall g a p, nb_ok g -> nb_sym g -> AI (zprod (g_shape g)) a ->
  0 <= p < zprod (g_shape g) -> PI g (fst a) -> PI g (fst (apoint g a p)).
Proof.
  intros g [rp new] p Hok Hsym HA Hp [P1 P2].
  pose proof (fun q => support_step g (rp, new) p q Hok HA Hp) as Hsup.
  unfold apoint in *; cbn [fst snd] in *.
  destruct (zn rp p =? 0) eqn:E0; cbn [fst snd] in *; [|split; auto].
  pose proof (ai_len _ _ HA) as Hl. pose proof (ai_rng _ _ HA) as Hr.
  pose proof (near_pos _ _ (nb g p) HA (fun c => nb_range g p c Hok Hp)) as HN.
  cbn [fst snd] in *.
  set (rp' := a_rep (nb g p) rp new p) in *.
  assert (Hlab : forall x, lab_of g rp' x <-> (lab_of g rp x \/ x = p)).
  { intros x. unfold lab_of. split.
    - intros [Hx Hn]. apply Hsup in Hn; auto. destruct Hn; auto.
    - intros [[Hx Hn]| ->]; (split; [auto|]); apply Hsup; auto. }
  assert (Hmono : forall x y, linked (adj_of g) (lab_of g rp) x y ->
                    linked (adj_of g) (lab_of g rp') x y).
  { intros x y. apply linked_mono; auto. intros z Hz. apply Hlab; auto. }
  assert (Hpp : lab_of g rp' p) by (apply Hlab; auto).
  assert (Hnear : forall c, In c (nb g p) -> lab_of g rp c -> In (zn rp c) (near (nb g p) rp)).
  { intros c Hc [_ Hn]. apply near_In. split; auto. exists c; auto. }
  assert (Hnp : forall x, lab_of g rp x -> x <> p) by (intros x [_ Hx] ->; lia).
  destruct (near (nb g p) rp) as [|c0 C0] eqn:EN.
  - (* new cluster *)
    assert (Z1 : forall q, 0 <= q < zprod (g_shape g) -> zn rp' q = if p =? q then new else zn rp q).
    { intros q Hq. destruct (a_rep_zn (nb g p) rp new p q) as [[E1 E2]|[E1 E2]]; try lia; auto. congruence. }
    split; intros x y Hx Hy.
    + apply Hlab in Hx. apply Hlab in Hy. intros Hin.
      destruct Hx as [Hx| ->], Hy as [Hy| ->]; auto.
      * rewrite !Z1 by (apply Hx || apply Hy).
        pose proof (Hnp x Hx). pose proof (Hnp y Hy).
        replace (p =? x) with false by lia. replace (p =? y) with false by lia. auto.
      * exfalso. assert (In x (nb g p)).
        { apply Hsym; auto. apply Hx. }
        apply (Hnear x) in H; auto.
      * exfalso. apply (Hnear y) in Hin; auto.
    + apply Hlab in Hx. apply Hlab in Hy.
      destruct Hx as [Hx| ->], Hy as [Hy| ->].
      * rewrite !Z1 by (apply Hx || apply Hy).
        pose proof (Hnp x Hx). pose proof (Hnp y Hy).
        replace (p =? x) with false by lia. replace (p =? y) with false by lia. auto.
      * rewrite !Z1 by (apply Hx || auto). rewrite Z.eqb_refl. pose proof (Hnp x Hx).
        replace (p =? x) with false by lia. destruct Hx as [Hx _]. specialize (Hr x Hx). lia.
      * rewrite !Z1 by (apply Hy || auto). rewrite Z.eqb_refl. pose proof (Hnp y Hy).
        replace (p =? y) with false by lia. destruct Hy as [Hy _]. specialize (Hr y Hy). lia.
      * intros _. constructor; auto.
  - rewrite <- EN in *. assert (HNE : near (nb g p) rp <> []) by congruence. clear EN c0 C0.
    set (C := near (nb g p) rp) in *. set (m := zmin C) in *.
    assert (Z1 : forall q, 0 <= q < zprod (g_shape g) -> zn rp' q =
        if p =? q then m else if existsb (Z.eqb (zn rp q)) C then m else zn rp q).
    { intros q Hq. destruct (a_rep_zn (nb g p) rp new p q) as [[E1 E2]|[E1 E2]]; try lia; [exfalso; apply HNE; exact E1|exact E2]. }
    assert (Hm : In m C) by (apply zmin_spec; auto).
    split; intros x y Hx Hy.
    + apply Hlab in Hx. apply Hlab in Hy. intros Hin.
      destruct Hx as [Hx| ->], Hy as [Hy| ->]; auto.
      * rewrite !Z1 by (apply Hx || apply Hy).
        pose proof (Hnp x Hx). pose proof (Hnp y Hy).
        replace (p =? x) with false by lia. replace (p =? y) with false by lia.
        rewrite (P1 x y); auto.
      * rewrite !Z1 by (apply Hx || auto). rewrite Z.eqb_refl. pose proof (Hnp x Hx).
        replace (p =? x) with false by lia.
        assert (In x (nb g p)) by (apply Hsym; auto; apply Hx).
        apply (Hnear x) in H0; auto. apply existsb_eqb in H0. rewrite H0. auto.
      * rewrite !Z1 by (apply Hy || auto). rewrite Z.eqb_refl. pose proof (Hnp y Hy).
        replace (p =? y) with false by lia.
        apply (Hnear y) in Hin; auto. apply existsb_eqb in Hin. rewrite Hin. auto.
    + (* every pixel with the merged label is linked to p *)
      assert (Hto : forall z, lab_of g rp' z -> zn rp' z = m ->
                linked (adj_of g) (lab_of g rp') z p).
      { intros z Hz Ez. apply Hlab in Hz. destruct Hz as [Hz| ->]; [|constructor; auto].
        assert (HzC : In (zn rp z) C).
        { rewrite Z1 in Ez by apply Hz. pose proof (Hnp z Hz).
          replace (p =? z) with false in Ez by lia.
          destruct (existsb (Z.eqb (zn rp z)) C) eqn:Ex; [apply existsb_eqb; auto|].
          rewrite Ez; auto. }
        apply near_In in HzC. destruct HzC as (_ & c & Hc & Ec).
        assert (Hcl : lab_of g rp c).
        { split; [apply (nb_range g p); auto|]. rewrite Ec. apply Hz. }
        eapply linked_trans; [apply Hmono; apply P2; [exact Hz|exact Hcl|congruence]|].
        econstructor; [apply Hlab; auto| |constructor; auto].
        apply Hsym; auto; [apply Hcl|]. apply not_eq_sym. apply Hnp; auto. }
      assert (Hsymr : forall x y, lab_of g rp' x -> lab_of g rp' y -> adj_of g x y -> adj_of g y x).
      { intros u v [Hu _] [Hv _] Ha. destruct (Z.eq_dec u v); [subst; auto|].
        apply Hsym; auto. }
      intros Exy. destruct (Z.eq_dec (zn rp' x) m) as [Em|Em].
      * eapply linked_trans; [apply (Hto x); auto|].
        apply linked_sym; auto. apply (Hto y); auto; congruence.
      * apply Hlab in Hx. apply Hlab in Hy.
        destruct Hx as [Hx| ->]; [|rewrite Z1, Z.eqb_refl in Em by auto; congruence].
        destruct Hy as [Hy| ->]; [|rewrite Exy, Z1, Z.eqb_refl in Em by auto; congruence].
        apply Hmono. apply P2; auto.
        pose proof Em as Em'. rewrite Exy in Em'.
        rewrite Z1 in Em by apply Hx. rewrite Z1 in Em' by apply Hy. rewrite !Z1 in Exy by (apply Hx || apply Hy).
        pose proof (Hnp x Hx). pose proof (Hnp y Hy).
        replace (p =? x) with false in * by lia. replace (p =? y) with false in * by lia.
        destruct (existsb _ C); [congruence|]. destruct (existsb _ C); congruence.
Qed.

Lemma PI_steps : forall g l a, nb_ok g -> nb_sym g -> AI (zprod (g_shape g)) a ->
  (forall p, In p l -> 0 <= p < zprod (g_shape g)) -> PI g (fst a) -> PI g (fst (apoints g l a)).
Proof.
  induction l as [|p l IH]; intros a Hok Hs HA Hl HP; cbn [apoints fold_left]; auto.
  assert (Hp : 0 <= p < zprod (g_shape g)) by (apply Hl; simpl; auto).
  apply IH; auto using ai_step, PI_step. intros; apply Hl; simpl; auto.
Qed.

Lemma PI_zero : forall g rp, (forall p, zn rp p = 0) -> PI g rp.
Proof. intros g rp H. split; intros x y [_ Hx]; exfalso; apply Hx; apply H. Qed.

(** ** Labels relative to the start of a batch (C07) *)

Definition Kept (N : Z) (rp0 : list Z) (new0 : Z) (a : list Z * Z) : Prop :=
  new0 <= snd a /\
  (forall q, 0 <= q < N -> zn rp0 q <> 0 -> 1 <= zn (fst a) q <= zn rp0 q) /\
  (forall q, 0 <= q < N -> 1 <= zn (fst a) q < new0 ->
     exists q', 0 <= q' < N /\ zn rp0 q' = zn (fst a) q /\ zn (fst a) q' = zn (fst a) q).

Lemma Kept_refl : forall N a, AI N a -> Kept N (fst a) (snd a) a.
Proof.
  intros N a HA. split; [lia|]. split.
  - intros q Hq Hn. pose proof (ai_rng _ _ HA q Hq). lia.
  - intros q Hq _. exists q; auto.
Qed.

Lemma Kept_step : forall g rp0 new0 a p, nb_ok g -> AI (zprod (g_shape g)) a ->
  0 <= p < zprod (g_shape g) -> Kept (zprod (g_shape g)) rp0 new0 a ->
  Kept (zprod (g_shape g)) rp0 new0 (apoint g a p).
Proof.
  intros g rp0 new0 [rp new] p Hok HA Hp (K0 & K1 & K2).
  unfold apoint; cbn [fst snd] in *.
  destruct (zn rp p =? 0) eqn:E0; cbn [fst snd] in *; [|split; [|split]; auto].
  pose proof (ai_len _ _ HA) as Hl. pose proof (ai_rng _ _ HA) as Hr.
  pose proof (near_pos _ _ (nb g p) HA (fun c => nb_range g p c Hok Hp)) as HN.
  cbn [fst snd] in *.
  assert (Hp0 : zn rp0 p = 0).
  { destruct (Z.eq_dec (zn rp0 p) 0); auto. pose proof (K1 p Hp n). lia. }
  split; [|split]; cbn [fst snd].
  - unfold a_new. destruct (near _ _); lia.
  - intros q Hq Hn. pose proof (K1 q Hq Hn) as K.
    assert (p <> q) by (intros ->; lia).
    destruct (a_rep_zn (nb g p) rp new p q) as [[E1 E2]|[E1 E2]]; try lia; rewrite E2;
    replace (p =? q) with false by lia; auto.
    destruct (existsb _ _) eqn:Ex; auto. apply existsb_eqb in Ex.
    destruct (zmin_spec _ E1) as [M1 M2]. specialize (M2 _ Ex). apply HN in M1. lia.
  - intros q Hq.
    destruct (near (nb g p) rp) as [|c0 C0] eqn:EN.
    + assert (Z1 : forall q, 0 <= q < zprod (g_shape g) -> zn (a_rep (nb g p) rp new p) q = if p =? q then new else zn rp q).
      { intros x Hx. destruct (a_rep_zn (nb g p) rp new p x) as [[E1 E2]|[E1 E2]]; try lia; auto. congruence. }
      rewrite !Z1 by auto. destruct (p =? q) eqn:Epq; [lia|]. intros Hlt.
      destruct (K2 q Hq Hlt) as (q' & Hq' & A1 & A2). exists q'. split; auto.
      rewrite Z1 by auto. destruct (p =? q') eqn:E; [|auto].
      apply Z.eqb_eq in E; subst q'. lia.
    + rewrite <- EN in *. assert (HNE : near (nb g p) rp <> []) by congruence. clear EN c0 C0.
      set (C := near (nb g p) rp) in *. set (m := zmin C) in *.
      assert (Z1 : forall q, 0 <= q < zprod (g_shape g) -> zn (a_rep (nb g p) rp new p) q =
        if p =? q then m else if existsb (Z.eqb (zn rp q)) C then m else zn rp q).
      { intros x Hx. destruct (a_rep_zn (nb g p) rp new p x) as [[E1 E2]|[E1 E2]]; try lia; [exfalso; apply HNE; exact E1|exact E2]. }
      assert (Hm : In m C) by (apply zmin_spec; auto).
      rewrite !Z1 by auto.
      assert (Mcase : 1 <= m < new0 -> exists q', 0 <= q' < zprod (g_shape g) /\ zn rp0 q' = m /\
                zn (a_rep (nb g p) rp new p) q' = m).
      { intros Hlt. pose proof Hm as Hm'. apply near_In in Hm'. destruct Hm' as (_ & c & Hc & Ec).
        pose proof (nb_range g p c Hok Hp Hc) as Hcr.
        destruct (K2 c Hcr ltac:(lia)) as (q' & Hq' & A1 & A2).
        exists q'. split; auto. split; [congruence|].
        rewrite Z1 by auto. destruct (p =? q'); auto. rewrite A2, Ec.
        apply existsb_eqb in Hm. now rewrite Hm. }
      destruct (p =? q) eqn:Epq; [auto|].
      destruct (existsb (Z.eqb (zn rp q)) C) eqn:Ex; [auto|].
      intros Hlt. destruct (K2 q Hq Hlt) as (q' & Hq' & A1 & A2). exists q'. split; auto. split; auto.
      rewrite Z1 by auto. destruct (p =? q') eqn:E.
      * apply Z.eqb_eq in E; subst q'. lia.
      * rewrite A2. now rewrite Ex.
Qed.

Lemma Kept_steps : forall g l rp0 new0 a, nb_ok g -> AI (zprod (g_shape g)) a ->
  (forall p, In p l -> 0 <= p < zprod (g_shape g)) -> Kept (zprod (g_shape g)) rp0 new0 a ->
  Kept (zprod (g_shape g)) rp0 new0 (apoints g l a).
Proof.
  induction l as [|p l IH]; intros rp0 new0 a Hok HA Hl HK; cbn [apoints fold_left]; auto.
  assert (Hp : 0 <= p < zprod (g_shape g)) by (apply Hl; simpl; auto).
  apply IH; auto using ai_step, Kept_step. intros; apply Hl; simpl; auto.
Qed.

(** ** Scan order (C02) *)

Definition Scan (N : Z) (rp : list Z) : Prop :=
  forall x y, 0 <= x < N -> 0 <= y < N -> zn rp x <> 0 -> zn rp x < zn rp y ->
    exists x', 0 <= x' < N /\ zn rp x' = zn rp x /\ x' < y.

Lemma Scan_step : forall g a p, nb_ok g -> AI (zprod (g_shape g)) a ->
  0 <= p < zprod (g_shape g) ->
  (forall q, 0 <= q < zprod (g_shape g) -> zn (fst a) q <> 0 -> q < p) ->
  Scan (zprod (g_shape g)) (fst a) -> Scan (zprod (g_shape g)) (fst (apoint g a p)).
Proof.
  intros g [rp new] p Hok HA Hp Hlt HS.
  unfold apoint; cbn [fst snd] in *.
  destruct (zn rp p =? 0) eqn:E0; cbn [fst snd] in *; auto.
  pose proof (ai_len _ _ HA) as Hl. pose proof (ai_rng _ _ HA) as Hr.
  pose proof (near_pos _ _ (nb g p) HA (fun c => nb_range g p c Hok Hp)) as HN.
  cbn [fst snd] in *.
  destruct (near (nb g p) rp) as [|c0 C0] eqn:EN.
  - assert (Z1 : forall q, 0 <= q < zprod (g_shape g) -> zn (a_rep (nb g p) rp new p) q = if p =? q then new else zn rp q).
    { intros x Hx. destruct (a_rep_zn (nb g p) rp new p x) as [[E1 E2]|[E1 E2]]; try lia; auto. congruence. }
    intros x y Hx Hy. rewrite !Z1 by auto. destruct (p =? x) eqn:Ex.
    + destruct (p =? y) eqn:Ey; [lia|]. specialize (Hr y Hy). lia.
    + destruct (p =? y) eqn:Ey.
      * intros Hn _. exists x. split; auto. rewrite Z1, Ex by auto. split; auto.
        specialize (Hlt x Hx Hn). lia.
      * intros Hn Hxy. destruct (HS x y Hx Hy Hn Hxy) as (x' & Hx' & A1 & A2).
        exists x'. split; auto. split; auto. rewrite Z1 by auto.
        destruct (p =? x') eqn:Ep; auto. apply Z.eqb_eq in Ep; subst x'. lia.
  - rewrite <- EN in *. assert (HNE : near (nb g p) rp <> []) by congruence. clear EN c0 C0.
    set (C := near (nb g p) rp) in *. set (m := zmin C) in *.
    assert (Z1 : forall q, 0 <= q < zprod (g_shape g) -> zn (a_rep (nb g p) rp new p) q =
        if p =? q then m else if existsb (Z.eqb (zn rp q)) C then m else zn rp q).
    { intros x Hx. destruct (a_rep_zn (nb g p) rp new p x) as [[E1 E2]|[E1 E2]]; try lia; [exfalso; apply HNE; exact E1|exact E2]. }
    destruct (zmin_spec C HNE) as [Hm Hmin]. fold m in Hm, Hmin.
    (* a pixel that had label m *)
    pose proof Hm as Hm'. apply near_In in Hm'. destruct Hm' as (Hm0 & c & Hc & Ec).
    pose proof (nb_range g p c Hok Hp Hc) as Hcr.
    assert (Hz : forall q, 0 <= q < zprod (g_shape g) -> zn rp q = m -> zn (a_rep (nb g p) rp new p) q = m).
    { intros q Hq Eq. rewrite Z1 by auto. destruct (p =? q); auto. rewrite Eq.
      apply existsb_eqb in Hm. now rewrite Hm. }
    assert (Mx : forall y, 0 <= y < zprod (g_shape g) -> m < zn rp y ->
       exists x', 0 <= x' < zprod (g_shape g) /\ zn (a_rep (nb g p) rp new p) x' = m /\ x' < y).
    { intros y Hy Hmy. destruct (HS c y Hcr Hy ltac:(lia) ltac:(lia)) as (x' & Hx' & A1 & A2).
      exists x'. split; auto. split; auto. apply Hz; auto. congruence. }
    intros x y Hx Hy. rewrite (Z1 x Hx), (Z1 y Hy).
    destruct (p =? x) eqn:Ex.
    + intros _. destruct (p =? y) eqn:Ey; [lia|].
      destruct (existsb (Z.eqb (zn rp y)) C) eqn:Ecy; [lia|]. intros; auto.
    + destruct (existsb (Z.eqb (zn rp x)) C) eqn:Ecx.
      * intros _. destruct (p =? y) eqn:Ey; [lia|].
        destruct (existsb (Z.eqb (zn rp y)) C) eqn:Ecy; [lia|]. intros; auto.
      * intros Hn. destruct (p =? y) eqn:Ey.
        -- intros _. exists x. split; auto. rewrite Z1, Ex, Ecx by auto. split; auto.
           specialize (Hlt x Hx Hn). lia.
        -- intros Hxy.
           assert (zn rp x < zn rp y).
           { destruct (existsb (Z.eqb (zn rp y)) C) eqn:Ecy; auto.
             apply existsb_eqb in Ecy. specialize (Hmin _ Ecy). lia. }
           destruct (HS x y Hx Hy Hn H) as (x' & Hx' & A1 & A2).
           exists x'. split; auto. split; auto. rewrite Z1 by auto.
           destruct (p =? x') eqn:Ep; [apply Z.eqb_eq in Ep; subst x'; lia|].
           rewrite A1. now rewrite Ecx.
Qed.

(** Scanning an increasing list of pixels. *)
Lemma Scan_steps : forall g l a, nb_ok g -> AI (zprod (g_shape g)) a ->
  (forall p, In p l -> 0 <= p < zprod (g_shape g)) -> StronglySorted Z.lt l ->
  (forall p q, In p l -> 0 <= q < zprod (g_shape g) -> zn (fst a) q <> 0 -> q < p) ->
  Scan (zprod (g_shape g)) (fst a) -> Scan (zprod (g_shape g)) (fst (apoints g l a)).
Proof.
  induction l as [|p l IH]; intros a Hok HA Hl Hss Hlt HS; cbn [apoints fold_left]; auto.
  assert (Hp : 0 <= p < zprod (g_shape g)) by (apply Hl; simpl; auto).
  apply StronglySorted_inv in Hss. destruct Hss as [Hss Hf]. rewrite Forall_forall in Hf.
  apply IH; auto using ai_step.
  - intros; apply Hl; simpl; auto.
  - intros p' q Hp' Hq Hn. rewrite support_step in Hn by auto. destruct Hn as [Hn| ->].
    + apply Hlt; simpl; auto.
    + apply Hf; auto.
  - apply Scan_step; auto. intros; apply Hlt; simpl; auto.
Qed.
