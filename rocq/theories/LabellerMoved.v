(** * LabellerMoved: a labeller follows the pixels it is given *)

From Coq Require Import ZArith List Bool Lia Sorting.Sorted.
From Verif Require Import Base BaseLemmas Cluster SpecCluster ClusterInv ClusterRefine ClusterRun ClusterGeom
  ClusterMain SpecSymmetry DerivedCluster SpecLabellerMoved.
Import ListNotations.
Open Scope Z_scope.

(** ** Everything of a state but the labels of the pixels *)

Definition same (s s' : st) : Prop :=
  c_new s' = c_new s /\ c_nmerge s' = c_nmerge s /\ c_renum s' = c_renum s /\ c_next s' = c_next s.

Definition sim (T : Z -> Z -> Prop) (s s' : st) : Prop :=
  same s s' /\ forall p p', T p p' -> zn (c_label s') p' = zn (c_label s) p.

Lemma bind_inv : forall A B (x : res A) (f : A -> res B) b, bind x f = Ok b -> exists a, x = Ok a /\ f a = Ok b.
Proof. intros A B [a| | |] f b H; try discriminate H. eauto. Qed.

Lemma merge_detail_same : forall s s' a b s1, same s s' -> merge_detail s a b = Ok s1 ->
  exists s1', merge_detail s' a b = Ok s1' /\ same s1 s1' /\ c_label s1 = c_label s /\ c_label s1' = c_label s'.
Proof.
  intros s s' a b s1 (E1 & E2 & E3 & E4) H. unfold merge_detail in *. rewrite E1, E2, E3, E4.
  repeat (apply bind_inv in H; destruct H as (? & -> & H); rewrite bind_Ok).
  apply (f_equal (fun r => match r with Ok x => x | _ => s1 end)) in H. subst s1.
  eexists. split; [reflexivity|]. repeat split.
Qed.

Lemma merge_fold_same : forall t l s s' s1, same s s' -> foldM (fun s b => merge_detail s t b) l s = Ok s1 ->
  exists s1', foldM (fun s b => merge_detail s t b) l s' = Ok s1' /\ same s1 s1' /\ c_label s1 = c_label s /\ c_label s1' = c_label s'.
Proof.
  induction l as [|b l IH]; intros s s' s1 HS H; cbn [foldM] in *.
  - apply (f_equal (fun r => match r with Ok x => x | _ => s1 end)) in H. subst s1. exists s'. auto.
  - apply bind_inv in H. destruct H as (s2 & E & H).
    destruct (merge_detail_same s s' t b s2 HS E) as (s2' & -> & S2 & L2 & L2'). rewrite bind_Ok.
    destruct (IH s2 s2' s1 S2 H) as (s1' & E' & S1 & L1 & L1'). exists s1'. split; auto. split; auto. split; congruence.
Qed.

Lemma merge_same : forall l s s' s1 t, same s s' -> merge s l = Ok (s1, t) ->
  exists s1', merge s' l = Ok (s1', t) /\ same s1 s1' /\ c_label s1 = c_label s /\ c_label s1' = c_label s'.
Proof.
  intros [|x l] s s' s1 t HS H; cbn [merge] in *; [discriminate|].
  apply bind_inv in H. destruct H as (s2 & E & H).
  destruct (merge_fold_same x l s s' s2 HS E) as (s2' & -> & R). rewrite bind_Ok.
  assert (s2 = s1 /\ x = t) as [-> ->] by (split; congruence). exists s2'. auto.
Qed.

(** ** One pixel *)

(** The choice of [label_impl], on the list of connected labels. *)
Definition choose (s : st) (idx : Z) (conn : list Z) : res st :=
  match conn with
  | [] =>
      s' <- set_label s idx (c_new s) ;;
      Ok (mkst (c_label s') (c_new s + 1) (c_nmerge s') (c_renum s') (c_next s'))
  | [c] => set_label s idx c
  | _ =>
      match unique conn with
      | [c] => set_label s idx c
      | u =>
          st' <- merge s u ;;
          let (s1, t) := st' in
          s2 <- set_label s1 idx t ;;
          Ok (mkst (c_label s2) (c_new s2) (c_nmerge s2 + 1) (c_renum s2) (c_next s2))
      end
  end.

(** It depends on the sorted list only. *)
Definition choose_set (s : st) (idx : Z) (u : list Z) : res st :=
  match u with
  | [] =>
      s' <- set_label s idx (c_new s) ;;
      Ok (mkst (c_label s') (c_new s + 1) (c_nmerge s') (c_renum s') (c_next s'))
  | [c] => set_label s idx c
  | u =>
      st' <- merge s u ;;
      let (s1, t) := st' in
      s2 <- set_label s1 idx t ;;
      Ok (mkst (c_label s2) (c_new s2) (c_nmerge s2 + 1) (c_renum s2) (c_next s2))
  end.

Lemma choose_unique : forall s idx C, choose s idx C = choose_set s idx (unique C).
Proof.
  intros s idx [|a [|b C]]; [reflexivity|reflexivity|]. unfold choose.
  destruct (unique (a :: b :: C)) as [|u0 [|u1 U]] eqn:E; [|reflexivity|reflexivity].
  exfalso. assert (H : In a (unique (a :: b :: C))) by (apply unique_In; simpl; auto). rewrite E in H. destruct H.
Qed.

Section Moved.

Variables (g g' : cfg) (T : Z -> Z -> Prop) (N : Z).
Hypothesis HW : wf g.
Hypothesis HW' : wf g'.
Hypothesis HN : N = zprod (g_shape g).
Hypothesis HN' : N = zprod (g_shape g').
Hypothesis HT : matching (g_shape g) (g_shape g') T.
Hypothesis HR : 0 < N -> in_range g.
Hypothesis HR' : 0 < N -> in_range g'.
Hypothesis HA : forall p q p' q', T p p' -> T q q' -> p <> q ->
  (neighbour (g_per g) (g_shape g) (g_dx g) p q <-> neighbour (g_per g') (g_shape g') (g_dx g') p' q').

Lemma t_range : forall p p', T p p' -> 0 <= p < N /\ 0 <= p' < N.
Proof.
  intros p p' Hp. destruct HT as (H1 & _). destruct (H1 p p' Hp) as [A B]. unfold pixel in *. lia.
Qed.

Lemma t_inj : forall p p' q q', T p p' -> T q q' -> (p = q <-> p' = q').
Proof.
  intros p p' q q' Hp Hq. destruct HT as (_ & _ & _ & H4 & H5). split; intros ->; eauto.
Qed.

Lemma near_sim : forall s s' p p', Inv N s -> Inv N s' -> sim T s s' -> T p p' -> zn (c_label s) p = 0 ->
  unique (near (nb g' p') (rep s')) = unique (near (nb g p) (rep s)).
Proof.
  intros s s' p p' HI HI' [(_ & _ & E3 & _) HL] Hp H0.
  destruct (t_range p p' Hp) as [Rp Rp'].
  assert (H0' : zn (c_label s') p' = 0) by (rewrite (HL p p' Hp); auto).
  pose proof (wf_nb_ok g HW) as Hok. pose proof (wf_nb_ok g' HW') as Hok'.
  apply ssorted_ext; [apply unique_sorted|apply unique_sorted|].
  intros r. rewrite !unique_In, !near_In. split; intros (Hr & c & Hc & Ec); split; auto.
  - pose proof (nb_range g' p' c Hok' ltac:(lia) Hc) as Rc.
    destruct HT as (_ & _ & H3 & _). destruct (H3 c Rc) as (q & Hq).
    exists q. destruct (t_range q c Hq) as [Rq _].
    assert (Hne : p <> q).
    { intros ->. apply Hr. rewrite <- Ec. rewrite rep_zn by (rewrite (iv_len _ _ HI'); lia).
      rewrite (proj1 (t_inj q p' q c Hp Hq) eq_refl) in H0'. rewrite H0'. apply (iv_r0 _ _ HI'). }
    assert (Hne' : p' <> c) by (intros X; apply Hne; apply (t_inj p p' q c Hp Hq); auto).
    split.
    + apply nb_spec; auto; try (unfold pixel; lia). { apply HR; lia. } apply (HA p q p' c Hp Hq Hne).
      apply nb_spec; auto; try (unfold pixel; lia). apply HR'; lia.
    + rewrite <- Ec. rewrite !rep_zn by (rewrite ?(iv_len _ _ HI), ?(iv_len _ _ HI'); lia). rewrite E3, (HL q c Hq). auto.
  - pose proof (nb_range g p c Hok ltac:(lia) Hc) as Rc.
    destruct HT as (_ & H2 & _). destruct (H2 c Rc) as (q & Hq).
    exists q. destruct (t_range c q Hq) as [_ Rq].
    assert (Hne : p <> c).
    { intros ->. apply Hr. rewrite <- Ec. rewrite rep_zn by (rewrite (iv_len _ _ HI); lia).
      rewrite H0. apply (iv_r0 _ _ HI). }
    assert (Hne' : p' <> q) by (intros X; apply Hne; apply (t_inj p p' c q Hp Hq); auto).
    split.
    + apply nb_spec; auto; try (unfold pixel; lia). { apply HR'; lia. } apply (HA p c p' q Hp Hq Hne).
      apply nb_spec; auto; try (unfold pixel; lia). apply HR; lia.
    + rewrite <- Ec. rewrite !rep_zn by (rewrite ?(iv_len _ _ HI), ?(iv_len _ _ HI'); lia). rewrite E3, (HL c q Hq). auto.
Qed.

Lemma upd_sim : forall (a a' : list Z) p p' v, lenZ a = N -> lenZ a' = N -> T p p' ->
  (forall q q', T q q' -> zn a' q' = zn a q) ->
  forall q q', T q q' -> zn (upd (Z.to_nat p') v a') q' = zn (upd (Z.to_nat p) v a) q.
Proof.
  intros a a' p p' v L L' Hp H q q' Hq. destruct (t_range p p' Hp) as [R R']. destruct (t_range q q' Hq) as [Q Q'].
  pose proof (t_inj p p' q q' Hp Hq) as TI. rewrite !zn_upd by lia.
  destruct (Z.eqb_spec p q) as [E|E]; destruct (Z.eqb_spec p' q') as [E'|E']; auto; tauto.
Qed.

Lemma set_sim : forall s s' p p' v s1, lenZ (c_label s) = N -> lenZ (c_label s') = N -> sim T s s' -> T p p' ->
  set_label s p v = Ok s1 -> exists s1', set_label s' p' v = Ok s1' /\ sim T s1 s1'.
Proof.
  intros s s' p p' v s1 L L' [(E1 & E2 & E3 & E4) HL] Hp H. destruct (t_range p p' Hp) as [R R'].
  unfold set_label in *. rewrite vset_ok in * by lia. rewrite bind_Ok in *.
  apply (f_equal (fun r => match r with Ok x => x | _ => s1 end)) in H. subst s1.
  eexists. split; [reflexivity|]. split; [repeat split; auto|]. cbn [c_label].
  apply upd_sim; auto.
Qed.

Lemma choose_sim : forall s s' p p' u s1, lenZ (c_label s) = N -> lenZ (c_label s') = N -> sim T s s' -> T p p' ->
  choose_set s p u = Ok s1 -> exists s1', choose_set s' p' u = Ok s1' /\ sim T s1 s1'.
Proof.
  intros s s' p p' u s1 L L' HS Hp H. pose proof HS as [(E1 & E2 & E3 & E4) HL].
  destruct u as [|c [|d u]]; unfold choose_set in *.
  - apply bind_inv in H. destruct H as (s2 & E & H).
    destruct (set_sim s s' p p' (c_new s) s2 L L' HS Hp E) as (s2' & E' & (F1 & F2 & F3 & F4) & FL).
    rewrite E1, E', bind_Ok. apply (f_equal (fun r => match r with Ok x => x | _ => s1 end)) in H. subst s1.
    eexists. split; [reflexivity|]. split; [repeat split; cbn; auto|exact FL].
  - apply (set_sim s s' p p' c s1 L L' HS Hp H).
  - apply bind_inv in H. destruct H as ([s2 t] & E & H).
    destruct (merge_same _ s s' s2 t (proj1 HS) E) as (s2' & -> & S2 & L2 & L2'). rewrite bind_Ok.
    apply bind_inv in H. destruct H as (s3 & E' & H).
    destruct (set_sim s2 s2' p p' t s3) as (s3' & -> & (F1 & F2 & F3 & F4) & FL); auto; try congruence.
    { split; auto. intros q q' Hq. rewrite L2, L2'. auto. }
    rewrite bind_Ok. apply (f_equal (fun r => match r with Ok x => x | _ => s1 end)) in H. subst s1.
    eexists. split; [reflexivity|]. split; [repeat split; cbn; auto; lia|exact FL].
Qed.

Lemma label_sim : forall s s' p p', Inv N s -> Inv N s' -> sim T s s' -> T p p' -> zn (c_label s) p = 0 ->
  exists s1 s1', label_impl g s p = Ok s1 /\ label_impl g' s' p' = Ok s1' /\ Inv N s1 /\ Inv N s1' /\ sim T s1 s1'.
Proof.
  intros s s' p p' HI HI' HS Hp H0. destruct (t_range p p' Hp) as [R R'].
  pose proof (wf_nb_ok g HW) as Hok. pose proof (wf_nb_ok g' HW') as Hok'.
  assert (H0' : zn (c_label s') p' = 0) by (rewrite (proj2 HS p p' Hp); auto).
  destruct (label_impl_ok N g s p HI HN Hok R H0) as (s1 & E & I1 & _).
  destruct (label_impl_ok N g' s' p' HI' HN' Hok' R' H0') as (s1' & E' & I1' & _).
  exists s1, s1'. split; auto. split; auto. split; auto. split; auto.
  change (label_impl g s p) with (conn <- connected_of g s p ;; choose s p conn) in E.
  change (label_impl g' s' p') with (conn <- connected_of g' s' p' ;; choose s' p' conn) in E'.
  rewrite connected_of_ok with (N := N) in E by auto. rewrite connected_of_ok with (N := N) in E' by auto.
  rewrite bind_Ok, choose_unique in *. rewrite (near_sim s s' p p' HI HI' HS Hp H0) in E'.
  destruct (choose_sim s s' p p' _ s1 (iv_len _ _ HI) (iv_len _ _ HI') HS Hp E) as (s2' & E2 & S2).
  assert (s2' = s1') by congruence. subst. auto.
Qed.

(** ** The calls *)

Lemma points_sim : forall l l' s s', Forall2 T l l' -> Inv N s -> Inv N s' -> sim T s s' ->
  exists s1 s1',
    foldM (fun s i => l <- vget (c_label s) i ;; if negb (l =? 0) then Ok s else label_impl g s i) l s = Ok s1 /\
    foldM (fun s i => l <- vget (c_label s) i ;; if negb (l =? 0) then Ok s else label_impl g' s i) l' s' = Ok s1' /\
    Inv N s1 /\ Inv N s1' /\ sim T s1 s1'.
Proof.
  intros l l' s s' HF. revert s s'. induction HF as [|p p' l l' Hp HF IH]; intros s s' HI HI' HS; cbn [foldM].
  - exists s, s'. auto.
  - destruct (t_range p p' Hp) as [R R'].
    rewrite !vget_ok by (rewrite ?(iv_len _ _ HI), ?(iv_len _ _ HI'); lia). rewrite !bind_Ok.
    rewrite (proj2 HS p p' Hp). destruct (zn (c_label s) p =? 0) eqn:E; cbn [negb].
    + destruct (label_sim s s' p p' HI HI' HS Hp ltac:(lia)) as (s1 & s1' & -> & -> & I1 & I1' & S1). rewrite !bind_Ok.
      apply IH; auto.
    + rewrite !bind_Ok. apply IH; auto.
Qed.

Lemma renumber_sim : forall (a a' r b b' : list Z), lenZ a = N -> lenZ a' = N ->
  (forall p p', T p p' -> zn a' p' = zn a p) -> private_renumber a r = Ok b -> private_renumber a' r = Ok b' ->
  forall p p', T p p' -> zn b' p' = zn b p.
Proof.
  intros a a' r b b' L L' H E E' p p' Hp. destruct (t_range p p' Hp) as [R R'].
  assert (K : forall (x y : list Z) i, private_renumber x r = Ok y -> 0 <= i < lenZ x -> vget r (zn x i) = Ok (zn y i)).
  { clear. intros x. unfold private_renumber. induction x as [|v x IH]; intros y i E Hi; [unfold lenZ in Hi; simpl in Hi; lia|].
    cbn [mapM] in E. apply bind_inv in E. destruct E as (w & Ew & E). apply bind_inv in E. destruct E as (y' & Ey & E).
    apply (f_equal (fun r => match r with Ok x => x | _ => y end)) in E. subst y.
    destruct (Z.eq_dec i 0) as [-> | Hne]; [exact Ew|].
    unfold zn in *. replace (Z.to_nat i) with (S (Z.to_nat (i - 1))) by lia. cbn [nth]. apply IH; auto.
    unfold lenZ in *. cbn [length] in Hi. lia. }
  pose proof (K a b p E ltac:(lia)) as K1. pose proof (K a' b' p' E' ltac:(lia)) as K2.
  rewrite (H p p' Hp) in K2. congruence.
Qed.

Lemma apply_sim : forall s s', Inv N s -> Inv N s' -> sim T s s' ->
  exists s1 s1', apply_merge s = Ok s1 /\ apply_merge s' = Ok s1' /\ Q N s1 /\ Q N s1' /\ sim T s1 s1'.
Proof.
  intros s s' HI HI' HS. destruct (apply_merge_ok N s HI) as (s1 & E & Q1 & _). destruct (apply_merge_ok N s' HI') as (s1' & E' & Q1' & _).
  exists s1, s1'. split; auto. split; auto. split; auto. split; auto.
  pose proof HS as [(E1 & E2 & E3 & E4) HL]. unfold apply_merge in E, E'. rewrite E2 in E'. destruct (c_nmerge s =? 0) eqn:EN.
  - assert (s1 = s) by congruence. assert (s1' = s') by congruence. subst. auto.
  - apply bind_inv in E. destruct E as (b & Eb & E). apply bind_inv in E'. destruct E' as (b' & Eb' & E').
    apply (f_equal (fun r => match r with Ok x => x | _ => s1 end)) in E. subst s1.
    apply (f_equal (fun r => match r with Ok x => x | _ => s1' end)) in E'. subst s1'.
    split; [repeat split; cbn; auto; now rewrite E4|]. cbn [c_label]. rewrite E3 in Eb'.
    apply (renumber_sim _ _ _ _ _ (iv_len _ _ HI) (iv_len _ _ HI') HL Eb Eb').
Qed.

Lemma inner_sim : forall rest rest' s s' nl nm lab i, Forall2 T rest rest' -> Inv N s -> Inv N s' -> sim T s s' ->
  exists s1 s1' j b, seq_inner g s nl nm lab i rest = Ok (s1, j, b) /\ seq_inner g' s' nl nm lab i rest' = Ok (s1', j, b) /\
    Inv N s1 /\ Inv N s1' /\ sim T s1 s1'.
Proof.
  intros rest rest' s s' nl nm lab i HF. revert s s' i. induction HF as [|p p' l l' Hp HF IH]; intros s s' i HI HI' HS; cbn [seq_inner].
  - exists s, s', i, false. auto.
  - destruct (t_range p p' Hp) as [R R'].
    rewrite !vget_ok by (rewrite ?(iv_len _ _ HI), ?(iv_len _ _ HI'); lia). rewrite !bind_Ok.
    rewrite (proj2 HS p p' Hp).
    destruct (negb (zn (c_label s) p =? lab) && negb (zn (c_label s) p =? 0)); [exists s, s', i, true; auto|].
    destruct (zn (c_label s) p =? 0) eqn:E; cbn [negb]; [|apply IH; auto].
    destruct (label_sim s s' p p' HI HI' HS Hp ltac:(lia)) as (s1 & s1' & -> & -> & I1 & I1' & S1). rewrite !bind_Ok.
    destruct S1 as [(F1 & F2 & F3 & F4) FL]. rewrite F1, F2.
    destruct (negb (c_new s1 =? nl) || negb (c_nmerge s1 =? nm)).
    + exists s1, s1', i, true. repeat (split; auto).
    + apply IH; auto. repeat (split; auto).
Qed.

Lemma skipn_forall2 : forall n (l l' : list Z), Forall2 T l l' -> Forall2 T (skipn n l) (skipn n l').
Proof. induction n; intros l l' H; [exact H|]. destruct H; simpl; auto. Qed.

Lemma forall2_len : forall l l', Forall2 T l l' -> lenZ l' = lenZ l.
Proof. intros l l' H. unfold lenZ. induction H; cbn [length]; lia. Qed.

Lemma forall2_at : forall l l', Forall2 T l l' -> forall i, 0 <= i < lenZ l -> T (zn l i) (zn l' i).
Proof.
  induction 1 as [|p p' l l' Hp HF IH]; intros i Hi; unfold lenZ in *; cbn [length] in Hi; [lia|].
  destruct (Z.eq_dec i 0) as [-> | Hne]; [exact Hp|].
  unfold zn in *. replace (Z.to_nat i) with (S (Z.to_nat (i - 1))) by lia. cbn [nth]. apply IH; lia.
Qed.

Lemma outer_sim : forall l l', Forall2 T l l' -> forall fuel s s' i ret s1 out, Inv N s -> Inv N s' -> sim T s s' ->
  seq_outer fuel g s l i ret = Ok (s1, out) ->
  exists s1', seq_outer fuel g' s' l' i ret = Ok (s1', out) /\ Inv N s1 /\ Inv N s1' /\ sim T s1 s1'.
Proof.
  intros l l' HF. induction fuel as [|fuel IH]; intros s s' i ret s1 out HI HI' HS H; cbn [seq_outer] in *; [discriminate|].
  apply bind_inv in H. destruct H as (p & Ep & H). pose proof (vget_inv _ _ _ _ Ep) as Hi.
  rewrite vget_ok in Ep by auto. assert (p = zn l i) by congruence. subst p. clear Ep.
  pose proof (forall2_len l l' HF) as HL. pose proof (forall2_at l l' HF i Hi) as Hp.
  destruct (t_range _ _ Hp) as [R R'].
  rewrite vget_ok in H by (rewrite (iv_len _ _ HI); lia). rewrite bind_Ok in H.
  rewrite (vget_ok l' i) by lia. rewrite bind_Ok. rewrite vget_ok by (rewrite (iv_len _ _ HI'); lia). rewrite bind_Ok.
  pose proof HS as [(E1 & E2 & E3 & E4) HLab]. rewrite (HLab _ _ Hp), E1, E2, HL.
  destruct (inner_sim _ _ s s' (c_new s) (c_nmerge s) (zn (c_label s) (zn l i)) i (skipn_forall2 (Z.to_nat i) l l' HF) HI HI' HS)
    as (s2 & s2' & j & b & F & F' & I2 & I2' & S2).
  rewrite F in H. rewrite F'. rewrite bind_Ok in *.
  destruct (j =? lenZ l).
  - assert (s1 = s2 /\ out = if b then ret ++ [j] else ret) as [-> ->] by (split; congruence). exists s2'. auto.
  - apply (IH s2 s2' j _ s1 out I2 I2' S2 H).
Qed.

Lemma points_range : forall l l', Forall2 T l l' -> (forall p, In p l -> 0 <= p < N) /\ (forall p, In p l' -> 0 <= p < N).
Proof.
  induction 1 as [|p p' l l' Hp HF [IH1 IH2]]; [simpl; tauto|]. destruct (t_range p p' Hp).
  split; intros q [<-|Hq]; auto.
Qed.

Lemma step_sim : forall asrt s s' o o', Q N s -> Q N s' -> sim T s s' -> legal (g_shape g) o -> carried_op T o o' ->
  legal (g_shape g') o' /\
  exists s1 s1' out, step asrt g s o = Ok (s1, out) /\ step asrt g' s' o' = Ok (s1', out) /\ Q N s1 /\ Q N s1' /\ sim T s1 s1'.
Proof.
  intros asrt s s' o o' HQ HQ' HS Hl HC. pose proof (zprod_big g HW) as HB. pose proof (zprod_big g' HW') as HB'.
  destruct o as [sh img|l|l| |], o' as [sh' img'|l'|l'| |]; cbn [carried_op] in HC; try tauto; cbn [step legal] in *.
  - destruct (points_range l l' HC) as [P P']. split.
    { intros p Hp. unfold pixel. rewrite <- HN'. auto. }
    unfold add_points.
    rewrite (legal_points_true N s l (proj1 HQ) ltac:(lia) P), (legal_points_true N s' l' (proj1 HQ') ltac:(lia) P').
    replace (assertb asrt true) with (Ok tt) by (destruct asrt; auto). rewrite !bind_Ok.
    destruct (points_sim l l' s s' HC (proj1 HQ) (proj1 HQ') HS) as (s1 & s1' & -> & -> & I1 & I1' & S1). rewrite !bind_Ok.
    destruct (apply_sim s1 s1' I1 I1' S1) as (s2 & s2' & -> & -> & Q2 & Q2' & S2). rewrite !bind_Ok.
    exists s2, s2', []. auto.
  - destruct (points_range l l' HC) as [P P']. destruct Hl as [Hne _].
    assert (Hne' : l' <> []) by (intros ->; inversion HC; subst; congruence). split.
    { split; auto. intros p Hp. unfold pixel. rewrite <- HN'. auto. }
    assert (QG : Q (zprod (g_shape g)) s) by (rewrite <- HN; auto).
    destruct (add_sequence_ok asrt g s l HW QG) as (s2 & ret & E & Q2 & _); auto.
    { rewrite <- HN. auto. }
    assert (Q' : Q (zprod (g_shape g')) s') by (rewrite <- HN'; auto).
    destruct (add_sequence_ok asrt g' s' l' HW' Q') as (s2' & ret' & E' & Q2' & _); auto.
    { rewrite <- HN'. auto. }
    exists s2, s2', (ret ++ [lenZ l]). split; auto.
    pose proof (forall2_len l l' HC) as HL. pose proof E' as K'.
    unfold add_sequence in E, E'. rewrite HL in E'.
    apply bind_inv in E. destruct E as (u & _ & E). apply bind_inv in E. destruct E as (u1 & _ & E).
    apply bind_inv in E. destruct E as ([s1 r1] & E1 & E). apply bind_inv in E. destruct E as (s3 & E3 & E).
    assert (s3 = s2 /\ r1 ++ [lenZ l] = ret ++ [lenZ l]) as [-> ER] by (split; congruence). clear E.
    destruct (outer_sim l l' HC _ s s' 0 [] s1 r1 (proj1 HQ) (proj1 HQ') HS E1) as (s1' & E1' & I1 & I1' & S1).
    destruct (apply_sim s1 s1' I1 I1' S1) as (t2 & t2' & A2 & A2' & _ & _ & S2).
    assert (t2 = s2) by congruence. subst t2.
    assert (EL : length l' = length l) by (unfold lenZ in HL; lia).
    apply bind_inv in E'. destruct E' as (u' & _ & E'). apply bind_inv in E'. destruct E' as (u1' & _ & E').
    rewrite EL, E1', bind_Ok, A2', bind_Ok in E'. cbv beta iota in E'.
    assert (t2' = s2' /\ ret' ++ [lenZ l] = ret ++ [lenZ l]) as [-> ER'] by (split; congruence).
    rewrite K', HL, ER'. rewrite HN at 1. rewrite HN' at 1. auto.
  - split; auto. destruct (prune_ok N s HQ) as (s1 & E & Q1 & _). destruct (prune_ok N s' HQ') as (s1' & E' & Q1' & _).
    rewrite E, E', !bind_Ok. exists s1, s1', []. split; auto. split; auto. split; auto. split; auto.
    pose proof HS as [(E1 & E2 & E3 & E4) HL]. unfold prune in E, E'. rewrite E1, E2, E3, E4 in E'.
    apply bind_inv in E. destruct E as (r0 & X0 & E). rewrite X0, bind_Ok in E'.
    apply bind_inv in E. destruct E as ([r1 n1] & X1 & E). rewrite X1, bind_Ok in E'.
    apply bind_inv in E. destruct E as (b & Xb & E). apply bind_inv in E'. destruct E' as (b' & Xb' & E').
    apply bind_inv in E. destruct E as (r2 & X2 & E). rewrite X2, bind_Ok in E'.
    apply (f_equal (fun r => match r with Ok x => x | _ => s1 end)) in E. subst s1.
    apply (f_equal (fun r => match r with Ok x => x | _ => s1' end)) in E'. subst s1'.
    split; [repeat split|]. cbn [c_label].
    apply (renumber_sim _ _ _ _ _ (iv_len _ _ (proj1 HQ)) (iv_len _ _ (proj1 HQ')) HL Xb Xb').
  - split; auto. exists (reset s), (reset s'), []. split; auto. split; auto.
    pose proof HS as [(E1 & E2 & E3 & E4) HL].
    assert (R : reset s = init g) by (apply reset_init; auto; rewrite <- HN; auto).
    assert (R' : reset s' = init g') by (apply reset_init; auto; rewrite <- HN'; auto).
    split; [rewrite R, HN; apply Q_init; auto|]. split; [rewrite R', HN'; apply Q_init; auto|].
    split; [repeat split; cbn; auto; now rewrite ?E3, ?E4|]. intros p p' _. rewrite R, R', !init_zero. reflexivity.
Qed.

Lemma run_sim : forall asrt ops ops', Forall2 (carried_op T) ops ops' -> Forall (legal (g_shape g)) ops ->
  forall s s', Q N s -> Q N s' -> sim T s s' ->
  Forall (legal (g_shape g')) ops' /\
  exists s1 s1' outs, run_from asrt g s ops = Ok (s1, outs) /\ run_from asrt g' s' ops' = Ok (s1', outs) /\
    Q N s1 /\ Q N s1' /\ sim T s1 s1'.
Proof.
  intros asrt ops ops' HF. induction HF as [|o o' ops ops' Ho HF IH]; intros HL s s' HQ HQ' HS; cbn [run_from].
  - split; auto. exists s, s', []. auto.
  - apply Forall_cons_iff in HL. destruct HL as [HL1 HL2].
    destruct (step_sim asrt s s' o o' HQ HQ' HS ltac:(assumption) Ho) as (L1 & s1 & s1' & out & -> & -> & Q1 & Q1' & S1).
    rewrite !bind_Ok. destruct (IH ltac:(assumption) s1 s1' Q1 Q1' S1) as (L2 & s2 & s2' & outs & -> & -> & Q2 & Q2' & S2).
    rewrite !bind_Ok. split; [constructor; auto|]. exists s2, s2', (out :: outs). auto.
Qed.

(** A history with every pixel moved: the same lists are returned and the labels move along. *)
Theorem run_moved : forall asrt ops ops', Forall2 (carried_op T) ops ops' -> Forall (legal (g_shape g)) ops ->
  Forall (legal (g_shape g')) ops' /\
  exists s s' outs, run asrt g ops = Ok (s, outs) /\ run asrt g' ops' = Ok (s', outs) /\
    carried T (c_label s) (c_label s') /\ c_new s' = c_new s.
Proof.
  intros asrt ops ops' HF HL.
  assert (QI : Q N (init g)) by (rewrite HN; apply Q_init; auto).
  assert (QI' : Q N (init g')) by (rewrite HN'; apply Q_init; auto).
  destruct (run_sim asrt ops ops' HF HL (init g) (init g')) as (L & s & s' & outs & E & E' & Q1 & Q1' & S1); auto.
  { split; [|intros p p' _; rewrite !init_zero; reflexivity]. unfold same, init. cbn [c_new c_nmerge c_renum c_next].
    rewrite <- HN, <- HN'. auto. }
  split; auto. exists s, s', outs. split; auto. split; auto. destruct S1 as [(E1 & E2 & E3 & E4) HLab]. split; auto.
  intros p p' Hp. destruct (t_range p p' Hp) as [R R'].
  pose proof (iv_len _ _ (proj1 Q1)) as L1. pose proof (iv_len _ _ (proj1 Q1')) as L1'. unfold lenZ in *.
  rewrite !nth_error_nth' with (d := 0) by lia. f_equal. apply HLab; auto.
Qed.

End Moved.
