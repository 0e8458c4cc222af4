(** * ClusterMain: histories of calls, and [clusters] (proofs only). *)

From Coq Require Import ZArith List Bool Lia Sorted Permutation.
From Verif Require Import Base BaseLemmas Cluster ClusterInv ClusterRefine ClusterGeom
  ClusterAbs ClusterRun SpecCluster.
Import ListNotations.
Open Scope Z_scope.

Definition support (g : cfg) (s : st) (A : Z -> Prop) : Prop :=
  forall p, pixel (g_shape g) p -> (zn (c_label s) p <> 0 <-> A p).

Lemma wf_N : forall g, wf g -> 0 <= zprod (g_shape g).
Proof. intros g (_ & H & _). apply zprod_nonneg; auto. Qed.

Lemma Q_AI : forall N s, Q N s -> AI N (c_label s, c_new s).
Proof. intros N s H. rewrite <- (Q_rep N s H). apply Inv_AI. apply H. Qed.

Lemma Q_init : forall g, wf g -> Q (zprod (g_shape g)) (init g).
Proof. intros g H. split; [apply inv_init, wf_N; auto|reflexivity]. Qed.

Lemma init_zero : forall g p, zn (c_label (init g)) p = 0.
Proof. intros. unfold init; cbn [c_label]. apply zn_repeat0. Qed.

Lemma reset_init : forall g s, wf g -> Q (zprod (g_shape g)) s -> reset s = init g.
Proof.
  intros g s Hwf [HI H0]. pose proof (wf_N g Hwf) as HN. unfold reset, init.
  pose proof (iv_len _ _ HI). pose proof (iv_rlen _ _ HI). pose proof (iv_nlen _ _ HI).
  unfold lenZ in *. rewrite H0. f_equal; f_equal; lia.
Qed.

(** ** Renumbering by [prune] *)

Lemma rank_lt_iff : forall N a p q, AI N a -> 0 <= p < N -> 0 <= q < N ->
  (rank (fst a) (zn (fst a) p) < rank (fst a) (zn (fst a) q) <-> zn (fst a) p < zn (fst a) q).
Proof.
  intros N a p q HA Hp Hq.
  assert (M : forall x y, 0 <= x < N -> 0 <= y < N -> zn (fst a) x < zn (fst a) y ->
    rank (fst a) (zn (fst a) x) < rank (fst a) (zn (fst a) y)).
  { intros x y Hx Hy Hlt. pose proof (ai_rng _ _ HA x Hx). pose proof (ai_len _ _ HA) as HL.
    assert (In (zn (fst a) y) (used (fst a))) by (apply used_In; split; [apply zn_In; lia|lia]).
    destruct (Z.eq_dec (zn (fst a) x) 0) as [E|E].
    - rewrite E, (rank_zero N a HA). pose proof (rank_pos _ _ H0). lia.
    - apply rank_mono; auto. apply used_In. split; [apply zn_In; lia|auto]. }
  split; [|apply M; auto]. intros H.
  destruct (Z.lt_trichotomy (zn (fst a) p) (zn (fst a) q)) as [L|[L|L]]; auto.
  - rewrite L in H. lia.
  - apply M in L; auto. lia.
Qed.

Lemma rank_eq_iff : forall N a p q, AI N a -> 0 <= p < N -> 0 <= q < N ->
  (rank (fst a) (zn (fst a) p) = rank (fst a) (zn (fst a) q) <-> zn (fst a) p = zn (fst a) q).
Proof.
  intros N a p q HA Hp Hq. pose proof (rank_lt_iff N a p q HA Hp Hq).
  pose proof (rank_lt_iff N a q p HA Hq Hp). lia.
Qed.

Lemma rank_zero_iff : forall N a p, AI N a -> 0 <= p < N ->
  (rank (fst a) (zn (fst a) p) = 0 <-> zn (fst a) p = 0).
Proof.
  intros N a p HA Hp. pose proof (ai_len _ _ HA) as HL. split; intros H.
  - destruct (Z.eq_dec (zn (fst a) p) 0); auto.
    pose proof (rank_pos (fst a) (zn (fst a) p)).
    assert (In (zn (fst a) p) (used (fst a))) by (apply used_In; split; [apply zn_In; lia|lia]).
    specialize (H0 H1). lia.
  - rewrite H. eapply rank_zero; eauto.
Qed.

Lemma PI_relabel : forall g r1 r2,
  (forall p q, pixel (g_shape g) p -> pixel (g_shape g) q -> (zn r1 p = zn r1 q <-> zn r2 p = zn r2 q)) ->
  (forall p, pixel (g_shape g) p -> (zn r1 p = 0 <-> zn r2 p = 0)) -> PI g r1 -> PI g r2.
Proof.
  intros g r1 r2 He Hz [P1 P2].
  assert (HL : forall x, lab_of g r2 x <-> lab_of g r1 x).
  { intros x. unfold lab_of. split; intros [A B]; split; auto; pose proof (Hz x A); tauto. }
  split; intros x y Hx Hy.
  - intros Hn. apply He; [apply Hx|apply Hy|]. apply P1; auto; apply HL; auto.
  - intros E. apply (linked_mono (adj_of g) (adj_of g) (lab_of g r1)); auto; [intros; apply HL; auto|].
    apply P2; try (apply HL; auto). apply He; [apply Hx|apply Hy|auto].
Qed.

(** ** One call *)

Definition step_post (g : cfg) (s : st) (A : Z -> Prop) (o : op) (s' : st) : Prop :=
  Q (zprod (g_shape g)) s' /\ support g s' (added_by A o) /\
  (nb_sym g -> PI g (c_label s) -> PI g (c_label s')).

Lemma apoints_post : forall g s s' l A, wf g -> Q (zprod (g_shape g)) s -> support g s A ->
  Q (zprod (g_shape g)) s' -> (c_label s', c_new s') = apoints g l (c_label s, c_new s) ->
  (forall p, In p l -> pixel (g_shape g) p) ->
  support g s' (fun p => A p \/ In p l) /\
  (nb_sym g -> PI g (c_label s) -> PI g (c_label s')).
Proof.
  intros g s s' l A Hwf HQ HS HQ' E Hl. pose proof (wf_nb_ok g Hwf) as Hok.
  pose proof (Q_AI _ _ HQ) as HA.
  assert (E1 : c_label s' = fst (apoints g l (c_label s, c_new s))) by (rewrite <- E; auto).
  split.
  - intros p Hp. rewrite E1, support_steps; auto. cbn [fst]. rewrite (HS p Hp). tauto.
  - intros Hsym HP. rewrite E1. apply PI_steps; auto.
Qed.

Lemma step_ok : forall asrt g s o A, wf g -> Q (zprod (g_shape g)) s -> support g s A ->
  legal (g_shape g) o ->
  exists s' out, step asrt g s o = Ok (s', out) /\ step_post g s A o s'.
Proof.
  intros asrt g s o A Hwf HQ HS Hl. pose proof (wf_nb_ok g Hwf) as Hok.
  destruct o as [sh img|l|l| |]; cbn [step legal] in *.
  - destruct Hl as [-> Hlen].
    destruct (add_image_ok asrt g s img Hwf HQ Hlen) as (s' & E & HQ' & R).
    rewrite E, bind_Ok. exists s', []. split; auto. split; auto.
    destruct (apoints_post g s s' (image_points img) A Hwf HQ HS HQ' R) as [S1 P1].
    { intros p Hp. apply image_points_In in Hp. unfold pixel. lia. }
    split; auto. intros p Hp. rewrite (S1 p Hp). cbn [added_by].
    rewrite image_points_In. unfold zn. tauto.
  - destruct (add_points_ok asrt g s l Hwf HQ Hl) as (s' & E & HQ' & R).
    rewrite E, bind_Ok. exists s', []. split; auto. split; auto.
    apply (apoints_post g s s' l A Hwf HQ HS HQ' R Hl).
  - destruct Hl as [Hne Hl].
    destruct (add_sequence_ok asrt g s l Hwf HQ Hl Hne) as (s' & ret & E & HQ' & R & _).
    rewrite E. exists s', (ret ++ [lenZ l]). split; auto. split; auto.
    apply (apoints_post g s s' l A Hwf HQ HS HQ' R Hl).
  - destruct (prune_ok _ _ HQ) as (s' & E & HQ' & L & _). rewrite E, bind_Ok.
    exists s', []. split; auto. split; auto. pose proof (Q_AI _ _ HQ) as HA.
    assert (Z1 : forall p, pixel (g_shape g) p -> zn (c_label s') p = rank (c_label s) (zn (c_label s) p)).
    { intros p Hp. rewrite L. apply zn_map. rewrite (iv_len _ _ (proj1 HQ)). exact Hp. }
    split.
    + intros p Hp. cbn [added_by]. rewrite Z1 by auto. rewrite <- (HS p Hp).
      pose proof (rank_zero_iff _ _ p HA Hp). cbn [fst] in *. tauto.
    + intros _. apply PI_relabel.
      * intros p q Hp Hq. rewrite !Z1 by auto. pose proof (rank_eq_iff _ _ p q HA Hp Hq). cbn [fst] in *. tauto.
      * intros p Hp. rewrite Z1 by auto. pose proof (rank_zero_iff _ _ p HA Hp). cbn [fst] in *. tauto.
  - rewrite (reset_init g s Hwf HQ). exists (init g), []. split; auto. split; [apply Q_init; auto|].
    split.
    + intros p Hp. rewrite init_zero. cbn [added_by]. tauto.
    + intros _ _. apply PI_zero. apply init_zero.
Qed.

(** ** Histories *)

Lemma run_from_ok : forall asrt g ops s A, wf g -> Q (zprod (g_shape g)) s -> support g s A ->
  Forall (legal (g_shape g)) ops ->
  exists s' outs, run_from asrt g s ops = Ok (s', outs) /\ Q (zprod (g_shape g)) s' /\
    support g s' (fold_left added_by ops A) /\ length outs = length ops /\
    (nb_sym g -> PI g (c_label s) -> PI g (c_label s')).
Proof.
  intros asrt g ops. induction ops as [|o ops IH]; intros s A Hwf HQ HS Hl.
  - exists s, []. simpl. auto.
  - inversion Hl; subst. destruct (step_ok asrt g s o A Hwf HQ HS H1) as (s1 & out & E & HQ1 & HS1 & HP1).
    destruct (IH s1 (added_by A o) Hwf HQ1 HS1 H2) as (s' & outs & E' & HQ' & HS' & HL' & HP').
    exists s', (out :: outs). cbn [run_from]. rewrite E, bind_Ok, E', bind_Ok. split; auto.
    split; auto. split; auto. split; [simpl; auto|]. auto.
Qed.

Lemma run_ok : forall asrt g ops, wf g -> Forall (legal (g_shape g)) ops ->
  exists s outs, run asrt g ops = Ok (s, outs) /\ Q (zprod (g_shape g)) s /\
    support g s (added ops) /\ length outs = length ops /\ (nb_sym g -> PI g (c_label s)).
Proof.
  intros asrt g ops Hwf Hl.
  destruct (run_from_ok asrt g ops (init g) (fun _ => False) Hwf (Q_init g Hwf)) as (s & outs & E & HQ & HS & HL & HP); auto.
  { intros p Hp. rewrite init_zero. tauto. }
  exists s, outs. split; auto. split; auto. split; auto. split; auto.
  intros Hs. apply HP; auto. apply PI_zero. apply init_zero.
Qed.

Lemma run_Q : forall asrt g ops s outs, wf g -> Forall (legal (g_shape g)) ops ->
  run asrt g ops = Ok (s, outs) -> Q (zprod (g_shape g)) s.
Proof.
  intros asrt g ops s outs Hwf Hl E. destruct (run_ok asrt g ops Hwf Hl) as (s' & o' & E' & HQ & _).
  congruence.
Qed.

(** ** Symmetric neighbourhoods *)

Lemma moved_sym : forall per shape a d b, inside shape a -> inside shape b ->
  moved per shape a d b -> moved per shape b (map Z.opp d) a.
Proof.
  intros per shape. induction shape as [|n shape IH]; intros [|x a] [|t d] [|y b] Ha Hb H; simpl in *; try tauto.
  destruct Ha as [Hx Ha], Hb as [Hy Hb], H as [H1 H2]. split; [|auto].
  destruct per; [|lia]. subst y. rewrite Zplus_mod_idemp_l.
  replace (x + t + - t) with x by lia. symmetry. apply Z.mod_small. lia.
Qed.

Lemma neighbour_sym : forall g p q, wf g -> symmetric g ->
  neighbour (g_per g) (g_shape g) (g_dx g) p q -> neighbour (g_per g) (g_shape g) (g_dx g) q p.
Proof.
  intros g p q Hwf Hs (Hp & Hq & d & Hd & HM). split; auto. split; auto.
  exists (map Z.opp d). split; auto. 
  assert (HF : Forall (fun n => 0 < n) (g_shape g)).
  { apply zprod_pos_inv; [apply Hwf|]. unfold pixel in Hp. lia. }
  apply moved_sym; auto; apply coords_inside; auto.
Qed.

Lemma sym_nb_sym : forall g, wf g -> in_range g -> symmetric g -> nb_sym g.
Proof.
  intros g Hwf Hr Hs p q Hp Hq Hpq H.
  apply nb_spec; auto. apply neighbour_sym; auto. apply nb_spec; auto.
Qed.

Lemma linked_adj : forall g rp A p q, wf g -> in_range g ->
  (forall x, lab_of g rp x <-> pixel (g_shape g) x /\ A x) ->
  (linked (adj_of g) (lab_of g rp) p q <->
   linked (neighbour (g_per g) (g_shape g) (g_dx g)) (fun x => pixel (g_shape g) x /\ A x) p q).
Proof.
  intros g rp A p q Hwf Hr HA. split; intros H.
  - apply (linked_mono (adj_of g) (adj_of g) (lab_of g rp) (fun x => pixel (g_shape g) x /\ A x)) in H; auto;
      [|intros; apply HA; auto].
    eapply linked_irrefl; [|exact H]. intros x y [Hx _] [Hy _] Hn. apply (nb_spec g); auto.
  - apply (linked_mono (neighbour (g_per g) (g_shape g) (g_dx g)) (neighbour (g_per g) (g_shape g) (g_dx g))
      (fun x => pixel (g_shape g) x /\ A x) (lab_of g rp)) in H; auto; [|intros; apply HA; auto].
    eapply linked_irrefl; [|exact H]. intros x y [Hx _] [Hy _] Hn. apply (nb_spec g); auto.
Qed.

(** C04. *)
Lemma run_partition : forall asrt g ops, wf g -> in_range g -> symmetric g ->
  Forall (legal (g_shape g)) ops ->
  exists s outs, run asrt g ops = Ok (s, outs) /\
  forall p q, pixel (g_shape g) p -> pixel (g_shape g) q -> added ops p -> added ops q ->
   (zn (c_label s) p = zn (c_label s) q <->
    linked (neighbour (g_per g) (g_shape g) (g_dx g)) (fun x => pixel (g_shape g) x /\ added ops x) p q).
Proof.
  intros asrt g ops Hwf Hr Hs Hl.
  destruct (run_ok asrt g ops Hwf Hl) as (s & outs & E & HQ & HS & _ & HP).
  exists s, outs. split; auto. intros p q Hp Hq Ap Aq.
  specialize (HP (sym_nb_sym g Hwf Hr Hs)).
  assert (HL : forall x, lab_of g (c_label s) x <-> pixel (g_shape g) x /\ added ops x).
  { intros x. unfold lab_of. split; intros [H1 H2]; split; auto; apply (HS x H1); auto. }
  rewrite (PI_iff g (c_label s) p q HP) by (apply HL; auto).
  apply linked_adj; auto.
Qed.

(** C07. *)
Lemma step_kept : forall asrt g s o s' out, wf g -> Q (zprod (g_shape g)) s ->
  legal (g_shape g) o -> is_add o -> step asrt g s o = Ok (s', out) ->
  Kept (zprod (g_shape g)) (c_label s) (c_new s) (c_label s', c_new s').
Proof.
  intros asrt g s o s' out Hwf HQ Hl Ha E. pose proof (wf_nb_ok g Hwf) as Hok.
  pose proof (Q_AI _ _ HQ) as HA.
  assert (G : forall l, (forall p, In p l -> pixel (g_shape g) p) ->
     (c_label s', c_new s') = apoints g l (c_label s, c_new s) ->
     Kept (zprod (g_shape g)) (c_label s) (c_new s) (c_label s', c_new s')).
  { intros l Hpl R. rewrite R. apply Kept_steps; auto.
    apply (Kept_refl _ (c_label s, c_new s)); auto. }
  destruct o as [sh img|l|l| |]; cbn [step legal is_add] in *; try tauto.
  - destruct Hl as [-> Hlen].
    destruct (add_image_ok asrt g s img Hwf HQ Hlen) as (s1 & E1 & HQ' & R).
    rewrite E1, bind_Ok in E. injection E as <- <-. apply (G (image_points img)); auto.
    intros p Hp. apply image_points_In in Hp. unfold pixel. lia.
  - destruct (add_points_ok asrt g s l Hwf HQ Hl) as (s1 & E1 & HQ' & R).
    rewrite E1, bind_Ok in E. injection E as <- <-. apply (G l); auto.
  - destruct Hl as [Hne Hl].
    destruct (add_sequence_ok asrt g s l Hwf HQ Hl Hne) as (s1 & ret & E1 & HQ' & R & _).
    rewrite E1 in E. injection E as <- <-. apply (G l); auto.
Qed.

Lemma add_labels : forall asrt g s o s' out, wf g -> Q (zprod (g_shape g)) s ->
  legal (g_shape g) o -> is_add o -> step asrt g s o = Ok (s', out) ->
  forall p, pixel (g_shape g) p -> zn (c_label s') p <> 0 ->
    (forall q, pixel (g_shape g) q -> zn (c_label s') q = zn (c_label s') p -> zn (c_label s) q <> 0 ->
       zn (c_label s') p <= zn (c_label s) q /\
       exists q', pixel (g_shape g) q' /\ zn (c_label s') q' = zn (c_label s') p /\
                  zn (c_label s) q' = zn (c_label s') p) /\
    ((forall q, pixel (g_shape g) q -> zn (c_label s') q = zn (c_label s') p -> zn (c_label s) q = 0) ->
       forall q, pixel (g_shape g) q -> zn (c_label s) q <> zn (c_label s') p).
Proof.
  intros asrt g s o s' out Hwf HQ Hl Ha E p Hp Hn.
  destruct (step_kept asrt g s o s' out Hwf HQ Hl Ha E) as (K0 & K1 & K2). cbn [fst snd] in *.
  pose proof (Q_AI _ _ HQ) as HA.
  assert (E' : exists A, support g s A).
  { exists (fun q => zn (c_label s) q <> 0). intros q _. tauto. }
  destruct E' as [A HS].
  destruct (step_ok asrt g s o A Hwf HQ HS Hl) as (s1 & o1 & E1 & HQ1 & _).
  assert (s1 = s') by congruence. subst s1. pose proof (Q_AI _ _ HQ1) as HA'.
  pose proof (ai_rng _ _ HA' p Hp) as Rp. cbn [fst snd] in Rp.
  split.
  - intros q Hq Eq Hnq. pose proof (K1 q Hq Hnq). split; [lia|].
    pose proof (ai_rng _ _ HA q Hq) as Rq. cbn [fst snd] in Rq.
    destruct (K2 p Hp ltac:(lia)) as (q' & Hq' & A1 & A2). exists q'. auto.
  - intros H q Hq Eq. pose proof (ai_rng _ _ HA q Hq) as Rq. cbn [fst snd] in Rq.
    destruct (K2 p Hp ltac:(lia)) as (q' & Hq' & A1 & A2). specialize (H q' Hq' A2). lia.
Qed.

(** C08. *)
Lemma nclusters_used : forall l, Z.of_nat (nclusters l) = lenZ (used l).
Proof.
  intros. unfold nclusters, lenZ. f_equal. apply Permutation_length. apply NoDup_Permutation.
  - apply NoDup_filter. apply NoDup_nodup.
  - apply used_NoDup.
  - intros x. rewrite filter_In, nodup_In, used_In.
    destruct (x =? 0) eqn:E; simpl; intuition (try lia; try discriminate).
Qed.

Lemma rank_id : forall N a, AI N a ->
  (forall v, (1 <= v <= lenZ (used (fst a)) <-> v <> 0 /\ exists p, 0 <= p < N /\ zn (fst a) p = v)) ->
  map (rank (fst a)) (fst a) = fst a.
Proof.
  intros N a HA H. pose proof (ai_len _ _ HA) as HL.
  assert (HU : used (fst a) = zrange 1 (lenZ (used (fst a)) + 1)).
  { apply ssorted_ext; [apply used_sorted|apply zseq_ssorted|].
    intros x. rewrite zrange_In, used_In. split.
    - intros [Hx Hn]. apply In_zn in Hx. destruct Hx as (p & Hp & Ep).
      assert (1 <= x <= lenZ (used (fst a))) by (apply H; split; auto; exists p; split; auto; lia). lia.
    - intros Hx. apply Z.lt_succ_r in Hx || idtac. assert (Hx' : 1 <= x <= lenZ (used (fst a))) by lia.
      apply H in Hx'. destruct Hx' as (Hn & p & Hp & Ep). split; auto. rewrite <- Ep. apply zn_In. lia. }
  apply list_ext_zn; [now rewrite map_length|]. intros i Hi. unfold lenZ in Hi. rewrite map_length in Hi.
  rewrite zn_map by (unfold lenZ; lia).
  assert (Hi' : 0 <= i < N) by (unfold lenZ in HL; lia).
  pose proof (ai_rng _ _ HA i Hi') as R. destruct (Z.eq_dec (zn (fst a) i) 0) as [E|E].
  - rewrite E. eapply rank_zero; eauto.
  - assert (Hv : 1 <= zn (fst a) i <= lenZ (used (fst a))) by (apply H; split; auto; exists i; auto).
    revert Hv. generalize (zn (fst a) i). intros v Hv. unfold rank. rewrite HU.
    rewrite (zrange_split 1 (v + 1)) by lia. rewrite filter_app, lenZ_app.
    rewrite filter_all by (intros x Hx; apply zrange_In in Hx; lia).
    rewrite filter_none by (intros x Hx; apply zrange_In in Hx; lia).
    unfold lenZ. rewrite zrange_length. simpl. lia.
Qed.

Lemma prune_spec : forall g s, wf g -> Q (zprod (g_shape g)) s ->
  exists s', prune s = Ok s' /\ lenZ (c_label s') = lenZ (c_label s) /\
    (forall p, pixel (g_shape g) p -> (zn (c_label s') p = 0 <-> zn (c_label s) p = 0)) /\
    (forall p q, pixel (g_shape g) p -> pixel (g_shape g) q ->
       (zn (c_label s') p < zn (c_label s') q <-> zn (c_label s) p < zn (c_label s) q)) /\
    (forall v, 1 <= v <= Z.of_nat (nclusters (c_label s)) <->
       v <> 0 /\ exists p, pixel (g_shape g) p /\ zn (c_label s') p = v) /\
    (exists s'', prune s' = Ok s'' /\ c_label s'' = c_label s').
Proof.
  intros g s Hwf HQ. destruct (prune_ok _ _ HQ) as (s' & E & HQ' & L & Nw).
  pose proof (Q_AI _ _ HQ) as HA. pose proof (Q_AI _ _ HQ') as HA'.
  assert (Z1 : forall p, pixel (g_shape g) p -> zn (c_label s') p = rank (c_label s) (zn (c_label s) p)).
  { intros p Hp. rewrite L. apply zn_map. rewrite (iv_len _ _ (proj1 HQ)). exact Hp. }
  assert (HV : forall v, 1 <= v <= lenZ (used (c_label s)) <->
       v <> 0 /\ exists p, pixel (g_shape g) p /\ zn (c_label s') p = v).
  { intros v. split.
    - intros Hv. split; [lia|]. destruct (rank_surj _ _ Hv) as (w & Hw & Ew).
      apply used_In in Hw. destruct Hw as [Hw _]. apply In_zn in Hw. destruct Hw as (p & Hp & Ep).
      rewrite (iv_len _ _ (proj1 HQ)) in Hp. exists p. split; auto. rewrite Z1 by auto. congruence.
    - intros (Hn & p & Hp & Ep). rewrite Z1 in Ep by auto. subst v.
      destruct (Z.eq_dec (zn (c_label s) p) 0) as [E0|E0].
      + rewrite E0 in Hn. pose proof (rank_zero _ _ HA) as R0. cbn [fst] in R0. lia.
      + apply rank_pos. apply used_In. split; auto. apply zn_In. rewrite (iv_len _ _ (proj1 HQ)). exact Hp. }
  exists s'. split; auto. split; [rewrite L; unfold lenZ; now rewrite map_length|].
  split. { intros p Hp. rewrite Z1 by auto. apply (rank_zero_iff _ _ p HA Hp). }
  split. { intros p q Hp Hq. rewrite !Z1 by auto. apply (rank_lt_iff _ _ p q HA Hp Hq). }
  split. { rewrite nclusters_used. auto. }
  destruct (prune_ok _ _ HQ') as (s'' & E'' & _ & L'' & _). exists s''. split; auto.
  rewrite L''. apply (rank_id _ _ HA'). cbn [fst]. intros v. rewrite <- HV.
  (* the two counts agree *)
  assert (lenZ (used (c_label s')) = lenZ (used (c_label s))).
  { transitivity (lenZ (zrange 1 (lenZ (used (c_label s)) + 1))).
    - f_equal. apply ssorted_ext; [apply used_sorted|apply zseq_ssorted|].
      intros x. rewrite zrange_In, used_In. split.
      + intros [Hx Hn]. apply In_zn in Hx. destruct Hx as (p & Hp & Ep).
        rewrite (iv_len _ _ (proj1 HQ')) in Hp.
        assert (1 <= x <= lenZ (used (c_label s))) by (apply HV; split; auto; exists p; auto). lia.
      + intros Hx. assert (Hx' : 1 <= x <= lenZ (used (c_label s))) by lia.
        apply HV in Hx'. destruct Hx' as (Hn & p & Hp & Ep). split; auto. rewrite <- Ep. apply zn_In.
        rewrite (iv_len _ _ (proj1 HQ')). exact Hp.
    - pose proof (lenZ_nonneg _ (used (c_label s))). unfold lenZ. rewrite zrange_length. unfold lenZ in *. lia. }
  lia.
Qed.

(** ** C10: counting clusters *)

Lemma used_upd_new : forall N a p, AI N a -> 0 <= p < N -> zn (fst a) p = 0 ->
  forall x, In x (upd (Z.to_nat p) (snd a) (fst a)) /\ x <> 0 <-> (In x (fst a) /\ x <> 0) \/ x = snd a.
Proof.
  intros N a p HA Hp H0 x. pose proof (ai_len _ _ HA) as HL. pose proof (ai_new _ _ HA).
  split.
  - intros [Hx Hn]. apply In_zn in Hx. destruct Hx as (i & Hi & Ei). rewrite upd_lenZ in Hi.
    rewrite zn_upd in Ei by lia. destruct (p =? i); [right; auto|]. left. split; auto. rewrite <- Ei. apply zn_In; auto.
  - intros [[Hx Hn]|Hx].
    + split; auto. apply In_zn in Hx. destruct Hx as (i & Hi & Ei).
      assert (i <> p) by (intros ->; lia).
      replace x with (zn (upd (Z.to_nat p) (snd a) (fst a)) i).
      * apply zn_In. rewrite upd_lenZ. auto.
      * rewrite zn_upd by lia. replace (p =? i) with false by lia. auto.
    + split; [|lia]. subst x. replace (snd a) with (zn (upd (Z.to_nat p) (snd a) (fst a)) p) at 1.
      * apply zn_In. rewrite upd_lenZ. lia.
      * rewrite zn_upd by lia. rewrite Z.eqb_refl. auto.
Qed.

Lemma NoDup_strict : forall (l l' : list Z) x, NoDup l -> (forall y, In y l -> In y l') -> In x l' -> ~ In x l ->
  (length l < length l')%nat.
Proof.
  intros l l' x HN HI Hx Hnx.
  assert (length (x :: l) <= length l')%nat.
  { apply NoDup_incl_length; [constructor; auto|]. intros y [<-|Hy]; auto. }
  simpl in H. lia.
Qed.

Lemma NoDup_same : forall (l l' : list Z), NoDup l -> NoDup l' -> (forall y, In y l <-> In y l') ->
  length l = length l'.
Proof. intros. apply Permutation_length. apply NoDup_Permutation; auto. Qed.

Lemma event_count : forall g a p, nb_ok g -> AI (zprod (g_shape g)) a -> 0 <= p < zprod (g_shape g) ->
  (event g a p = true <-> nclusters (fst (apoint g a p)) <> nclusters (fst a)).
Proof.
  intros g a p Hok HA Hp.
  assert (HU : forall l, nclusters l = length (used l)).
  { intros l. pose proof (nclusters_used l). unfold lenZ in H. lia. }
  rewrite !HU. unfold event, apoint. pose proof (ai_len _ _ HA) as HL.
  destruct (zn (fst a) p =? 0) eqn:E0; cbn [andb fst]; [|split; [discriminate|congruence]].
  pose proof (fun q Hq => a_rep_zn (nb g p) (fst a) (snd a) p q ltac:(lia) Hq) as AR.
  pose proof (near_pos _ _ (nb g p) HA (fun c => nb_range g p c Hok Hp)) as NP.
  set (C := near (nb g p) (fst a)) in *.
  assert (Hlen' : lenZ (a_rep (nb g p) (fst a) (snd a) p) = zprod (g_shape g)) by (rewrite a_rep_len; auto).
  destruct (unique C) as [|u us] eqn:EU.
  - assert (EC : C = []).
    { destruct C as [|c C']; auto. exfalso.
      pose proof (proj2 (unique_In c (c :: C')) (or_introl eq_refl)) as H. rewrite EU in H. auto. }
    split; auto. intros _. intros EQ.
    assert (length (used (fst a)) < length (used (a_rep (nb g p) (fst a) (snd a) p)))%nat; [|lia].
    assert (HR : a_rep (nb g p) (fst a) (snd a) p = upd (Z.to_nat p) (snd a) (fst a)).
    { unfold a_rep. fold C. rewrite EC. auto. }
    rewrite HR. apply (NoDup_strict _ _ (snd a)); [apply used_NoDup| | |].
    + intros y Hy. rewrite used_In in *. apply (used_upd_new _ a p HA Hp ltac:(lia)). auto.
    + rewrite used_In. apply (used_upd_new _ a p HA Hp ltac:(lia)). auto.
    + rewrite used_In. intros [Hx _]. apply In_zn in Hx. destruct Hx as (i & Hi & Ei).
      pose proof (ai_rng _ _ HA i ltac:(lia)). lia.
  - assert (CN : C <> []).
    { intros EC. rewrite EC in EU. discriminate. }
    pose proof (zmin_spec C CN) as [M1 M2].
    assert (CI : forall c, In c C -> In c (used (fst a))).
    { intros c Hc. apply near_In in Hc. destruct Hc as (Hc0 & q & Hq & Eq). apply used_In. split; auto.
      rewrite <- Eq. apply zn_In. pose proof (nb_range g p q Hok Hp Hq). lia. }
    assert (AR' : forall q, 0 <= q < zprod (g_shape g) -> zn (a_rep (nb g p) (fst a) (snd a) p) q =
       if p =? q then zmin C else if existsb (Z.eqb (zn (fst a) q)) C then zmin C else zn (fst a) q).
    { intros q Hq. destruct (AR q ltac:(lia)) as [[X _]|[_ X]]; [congruence|exact X]. }
    assert (SUB : forall y, In y (used (a_rep (nb g p) (fst a) (snd a) p)) ->
       In y (used (fst a)) /\ (In y C -> y = zmin C)).
    { intros y Hy. apply used_In in Hy. destruct Hy as [Hy Hn]. apply In_zn in Hy.
      destruct Hy as (q & Hq & Eq). rewrite AR' in Eq by lia.
      destruct (p =? q); [split; [subst y; apply CI; auto|auto]|].
      destruct (existsb (Z.eqb (zn (fst a) q)) C) eqn:Ex; [split; [subst y; apply CI; auto|auto]|].
      split; [apply used_In; split; auto; rewrite <- Eq; apply zn_In; lia|].
      intros Hc. apply existsb_eqb_false in Ex. rewrite Eq in Ex. tauto. }
    assert (SUP : forall y, In y (used (fst a)) -> (In y C -> y = zmin C) ->
       In y (used (a_rep (nb g p) (fst a) (snd a) p))).
    { intros y Hy HC. apply used_In in Hy. destruct Hy as [Hy Hn]. apply used_In. split; auto.
      apply In_zn in Hy. destruct Hy as (q & Hq & Eq).
      replace y with (zn (a_rep (nb g p) (fst a) (snd a) p) q); [apply zn_In; lia|].
      rewrite AR' by lia. destruct (p =? q) eqn:Epq.
      - assert (p = q) by lia. subst q. lia.
      - destruct (existsb (Z.eqb (zn (fst a) q)) C) eqn:Ex; auto.
        apply existsb_eqb in Ex. rewrite Eq in Ex. symmetry. auto. }
    destruct us as [|u' us'].
    + split; [discriminate|]. intros HN. exfalso. apply HN. apply NoDup_same; try apply used_NoDup.
      intros y. split; [apply SUB|]. intros Hy. apply SUP; auto. intros Hc.
      rewrite <- unique_In in Hc, M1. rewrite EU in Hc, M1. simpl in *. destruct Hc, M1; try tauto. congruence.
    + split; auto. intros _ EQ.
      assert (length (used (a_rep (nb g p) (fst a) (snd a) p)) < length (used (fst a)))%nat; [|lia].
      assert (X : exists c, In c C /\ c <> zmin C).
      { pose proof (unique_NoDup C) as ND. rewrite EU in ND. inversion ND; subst.
        assert (u <> u') by (intros ->; apply H1; simpl; auto).
        destruct (Z.eq_dec u (zmin C)).
        - exists u'. split; [|congruence]. apply unique_In. rewrite EU. simpl; auto.
        - exists u. split; auto. apply unique_In. rewrite EU. simpl; auto. }
      destruct X as (c & Hc & Hcm).
      apply (NoDup_strict _ _ c); [apply used_NoDup| | |].
      * intros y Hy. apply SUB; auto.
      * apply CI; auto.
      * intros H. apply SUB in H. destruct H as [_ H]. apply Hcm. auto.
Qed.

Lemma events_In : forall g l a i k, nb_ok g -> AI (zprod (g_shape g)) a ->
  (forall p, In p l -> 0 <= p < zprod (g_shape g)) -> (k < length l)%nat ->
  (In (i + Z.of_nat k) (events g a i l) <->
   nclusters (fst (apoints g (firstn (S k) l) a)) <> nclusters (fst (apoints g (firstn k l) a))).
Proof.
  induction l as [|p l IH]; intros a i k Hok HA Hl Hk; [simpl in Hk; lia|].
  assert (Hp : 0 <= p < zprod (g_shape g)) by (apply Hl; simpl; auto).
  cbn [events]. rewrite in_app_iff. destruct k as [|k].
  - change (firstn 1 (p :: l)) with [p]. cbn [firstn apoints fold_left]. rewrite <- event_count by auto.
    rewrite Z.add_0_r. destruct (event g a p); cbn [In].
    + tauto.
    + split; [|discriminate]. intros [[]|H]. apply events_range in H. lia.
  - rewrite !firstn_cons. cbn [apoints fold_left].
    fold (apoints g (firstn k l) (apoint g a p)). 
    change (fold_left (apoint g) (firstn (S k) l) (apoint g a p)) with (apoints g (firstn (S k) l) (apoint g a p)).
    rewrite <- (IH (apoint g a p) (i + 1) k); auto using ai_step;
      [|intros; apply Hl; simpl; auto|simpl in Hk; lia].
    replace (i + Z.of_nat (S k)) with (i + 1 + Z.of_nat k) by lia.
    split; auto. intros [H|H]; auto. destruct (event g a p); simpl in H; [|tauto]. lia.
Qed.

Lemma firstn_In : forall (l : list Z) n x, In x (firstn n l) -> In x l.
Proof. intros. rewrite <- (firstn_skipn n l). apply in_or_app. auto. Qed.

Lemma add_sequence_spec : forall asrt g s l, wf g -> Q (zprod (g_shape g)) s ->
  legal (g_shape g) (AddSequence l) ->
  exists s1 s2 ret, add_points asrt g s l = Ok s1 /\ add_sequence asrt g s l = Ok (s2, ret ++ [lenZ l]) /\
    c_label s2 = c_label s1 /\ StronglySorted Z.lt (ret ++ [lenZ l]) /\
    (forall i, In i ret -> 0 <= i < lenZ l) /\
    (forall k t1 t2, (k < length l)%nat -> add_points asrt g s (firstn k l) = Ok t1 ->
        add_points asrt g s (firstn (S k) l) = Ok t2 ->
        nclusters (c_label t2) <> nclusters (c_label t1) -> In (Z.of_nat k) ret).
Proof.
  intros asrt g s l Hwf HQ [Hne Hl]. pose proof (wf_nb_ok g Hwf) as Hok.
  destruct (add_points_ok asrt g s l Hwf HQ Hl) as (s1 & E1 & HQ1 & R1).
  destruct (add_sequence_ok asrt g s l Hwf HQ Hl Hne) as (s2 & ret & E2 & HQ2 & R2 & SS & Hr & He & _).
  exists s1, s2, ret. split; auto. split; auto. split; [congruence|].
  split.
  { clear - SS Hr. revert Hr. generalize (lenZ l) as m. induction SS as [|x r SS IH F]; intros m Hr; simpl.
    - constructor; [constructor|constructor].
    - constructor; [apply IH; intros; apply Hr; simpl; auto|].
      rewrite Forall_forall in *. intros y Hy. apply in_app_or in Hy. destruct Hy as [Hy|[<-|[]]]; auto.
      apply Hr; simpl; auto. }
  split; auto. intros k t1 t2 Hk F1 F2 HN. apply He.
  change (Z.of_nat k) with (0 + Z.of_nat k). apply events_In; auto; [apply Q_AI; auto|].
  destruct (add_points_ok asrt g s (firstn k l) Hwf HQ) as (u1 & G1 & _ & H1); [intros; apply Hl; eapply firstn_In; eauto|].
  destruct (add_points_ok asrt g s (firstn (S k) l) Hwf HQ) as (u2 & G2 & _ & H2); [intros; apply Hl; eapply firstn_In; eauto|].
  assert (u1 = t1) by congruence. assert (u2 = t2) by congruence. subst u1 u2.
  rewrite <- H1, <- H2. exact HN.
Qed.

(** ** C11: what [add_sequence] reports *)

Lemma add_sequence_why : forall asrt g s l, wf g -> Q (zprod (g_shape g)) s ->
  legal (g_shape g) (AddSequence l) ->
  exists s2 ret, add_sequence asrt g s l = Ok (s2, ret ++ [lenZ l]) /\
    forall k t1 t2, (k < length l)%nat -> add_points asrt g s (firstn k l) = Ok t1 ->
      add_points asrt g s (firstn (S k) l) = Ok t2 ->
      (nclusters (c_label t2) <> nclusters (c_label t1) -> In (Z.of_nat k) ret) /\
      (In (Z.of_nat k) ret -> nclusters (c_label t2) <> nclusters (c_label t1) \/ zn (c_label t1) (nth k l 0) <> 0).
Proof.
  intros asrt g s l Hwf HQ [Hne Hl]. pose proof (wf_nb_ok g Hwf) as Hok.
  destruct (add_sequence_ok asrt g s l Hwf HQ Hl Hne) as (s2 & ret & E2 & HQ2 & R2 & SS & Hr & He & Hw).
  exists s2, ret. split; auto. intros k t1 t2 Hk F1 F2.
  destruct (add_points_ok asrt g s (firstn k l) Hwf HQ) as (u1 & G1 & _ & H1); [intros; apply Hl; eapply firstn_In; eauto|].
  destruct (add_points_ok asrt g s (firstn (S k) l) Hwf HQ) as (u2 & G2 & _ & H2); [intros; apply Hl; eapply firstn_In; eauto|].
  assert (u1 = t1) by congruence. assert (u2 = t2) by congruence. subst u1 u2.
  pose proof (events_In g l (c_label s, c_new s) 0 k Hok (Q_AI _ _ HQ) Hl Hk) as EV.
  rewrite Z.add_0_l, <- H1, <- H2 in EV. cbn [fst] in EV.
  split; [intros HN; apply He, EV; auto|].
  intros HI. destruct (Hw _ HI) as [W|W]; [left; apply EV; auto|right].
  rewrite Nat2Z.id, <- H1 in W. unfold zn in W at 2. rewrite Nat2Z.id in W. exact W.
Qed.

Lemma nth_firstn_NoDup : forall (l : list Z) k, NoDup l -> (k < length l)%nat -> ~ In (nth k l 0) (firstn k l).
Proof.
  induction l as [|x l IH]; intros k HN Hk; [simpl in Hk; lia|]. inversion HN; subst.
  destruct k as [|k]; cbn [nth firstn]; [simpl; tauto|]. simpl in Hk.
  intros [E|H]; [|apply (IH k); auto; lia]. apply H1. rewrite E. apply nth_In. lia.
Qed.

Lemma add_sequence_exact : forall asrt g s l, wf g -> Q (zprod (g_shape g)) s ->
  legal (g_shape g) (AddSequence l) -> NoDup l -> (forall p, In p l -> zn (c_label s) p = 0) ->
  exists s2 ret, add_sequence asrt g s l = Ok (s2, ret ++ [lenZ l]) /\
    forall k t1 t2, (k < length l)%nat -> add_points asrt g s (firstn k l) = Ok t1 ->
      add_points asrt g s (firstn (S k) l) = Ok t2 ->
      (In (Z.of_nat k) ret <-> nclusters (c_label t2) <> nclusters (c_label t1)).
Proof.
  intros asrt g s l Hwf HQ HL HN H0. destruct (add_sequence_why asrt g s l Hwf HQ HL) as (s2 & ret & E & H).
  exists s2, ret. split; auto. intros k t1 t2 Hk F1 F2. destruct (H k t1 t2 Hk F1 F2) as [A B].
  split; auto. intros HI. destruct (B HI) as [C|C]; auto. exfalso. apply C.
  destruct HL as [_ Hl].
  assert (Hp : pixel (g_shape g) (nth k l 0)) by (apply Hl, nth_In; auto).
  assert (Hf : forall p, In p (firstn k l) -> pixel (g_shape g) p) by (intros; apply Hl; eapply firstn_In; eauto).
  destruct (add_points_ok asrt g s (firstn k l) Hwf HQ Hf) as (u1 & G1 & HQ1 & H1).
  assert (u1 = t1) by congruence. subst u1.
  destruct (apoints_post g s t1 (firstn k l) (fun p => zn (c_label s) p <> 0) Hwf HQ) as [S1 _]; auto.
  { intros p Hp'. tauto. }
  destruct (Z.eq_dec (zn (c_label t1) (nth k l 0)) 0) as [|X]; auto. exfalso.
  apply (S1 _ Hp) in X. destruct X as [X|X].
  - apply X, H0, nth_In; auto.
  - eapply nth_firstn_NoDup; eauto.
Qed.

(** ** C64: batches *)

Lemma zseq_seq : forall n a, 0 <= a -> zseq a n = map Z.of_nat (seq (Z.to_nat a) n).
Proof.
  induction n as [|n IH]; intros a Ha; simpl; auto. f_equal; [lia|].
  rewrite IH by lia. f_equal. f_equal. lia.
Qed.

Lemma points_of_image : forall sh img, points_of (AddImage sh img) = image_points img.
Proof. intros. unfold points_of, image_points. rewrite zseq_seq by lia. reflexivity. Qed.

Lemma adds_ok : forall asrt g ops s, wf g -> Q (zprod (g_shape g)) s -> Forall (legal (g_shape g)) ops ->
  Forall is_add ops ->
  exists s' outs, run_from asrt g s ops = Ok (s', outs) /\ Q (zprod (g_shape g)) s' /\
    (c_label s', c_new s') = apoints g (flat_map points_of ops) (c_label s, c_new s).
Proof.
  intros asrt g ops. induction ops as [|o ops IH]; intros s Hwf HQ Hl Ha.
  - exists s, []. simpl. auto.
  - inversion Hl; subst. inversion Ha; subst.
    assert (X : exists s1 out, step asrt g s o = Ok (s1, out) /\ Q (zprod (g_shape g)) s1 /\
       (c_label s1, c_new s1) = apoints g (points_of o) (c_label s, c_new s)).
    { destruct o as [sh img|l|l| |]; cbn [is_add step legal] in *; try tauto; [rewrite points_of_image| |].
      - destruct H1 as [-> Hlen].
        destruct (add_image_ok asrt g s img Hwf HQ Hlen) as (s' & E & HQ' & R).
        rewrite E, bind_Ok. exists s', []. auto.
      - cbn [points_of]. destruct (add_points_ok asrt g s l Hwf HQ H1) as (s' & E & HQ' & R). rewrite E, bind_Ok. exists s', []. auto.
      - destruct H1 as [Hne Hll]. destruct (add_sequence_ok asrt g s l Hwf HQ Hll Hne) as (s' & ret & E & HQ' & R & _).
        exists s', (ret ++ [lenZ l]). auto. }
    destruct X as (s1 & out & E & HQ1 & R1).
    destruct (IH s1 Hwf HQ1 H2 H4) as (s' & outs & E' & HQ' & R').
    exists s', (out :: outs). cbn [run_from flat_map]. rewrite E, bind_Ok, E', bind_Ok. split; auto. split; auto.
    rewrite apoints_app, <- R1. exact R'.
Qed.

Lemma batches : forall asrt1 asrt2 g ops ops1 ops2 s outs, wf g -> Forall (legal (g_shape g)) ops ->
  run asrt1 g ops = Ok (s, outs) ->
  Forall (legal (g_shape g)) ops1 -> Forall (legal (g_shape g)) ops2 ->
  Forall is_add ops1 -> Forall is_add ops2 -> flat_map points_of ops1 = flat_map points_of ops2 ->
  exists s1 s2 o1 o2, run_from asrt1 g s ops1 = Ok (s1, o1) /\ run_from asrt2 g s ops2 = Ok (s2, o2) /\
    c_label s1 = c_label s2.
Proof.
  intros asrt1 asrt2 g ops ops1 ops2 s outs Hwf Hl E L1 L2 A1 A2 EQ.
  pose proof (run_Q _ _ _ _ _ Hwf Hl E) as HQ.
  destruct (adds_ok asrt1 g ops1 s Hwf HQ L1 A1) as (s1 & o1 & E1 & _ & R1).
  destruct (adds_ok asrt2 g ops2 s Hwf HQ L2 A2) as (s2 & o2 & E2 & _ & R2).
  exists s1, s2, o1, o2. split; auto. split; auto. rewrite <- EQ in R2. congruence.
Qed.
