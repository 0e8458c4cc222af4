(** * LabellerOne: what the labeller does with one more pixel *)

From Coq Require Import ZArith List Bool Lia Permutation.
From Verif Require Import Base BaseLemmas Cluster SpecCluster ClusterInv ClusterAbs ClusterRefine ClusterRun ClusterGeom
  ClusterMain ClusterTop KernelProofs AliasTop SpecLabellerOne.
Import ListNotations.
Open Scope Z_scope.

(** ** Counting labels *)

Definition labels_in (l : list Z) : list Z := filter (fun x => negb (x =? 0)) (nodup Z.eq_dec l).

Lemma labels_in_In : forall l v, In v (labels_in l) <-> v <> 0 /\ In v l.
Proof. intros l v. unfold labels_in. rewrite filter_In, nodup_In. destruct (Z.eqb_spec v 0); cbn; intuition congruence. Qed.

Lemma labels_in_NoDup : forall l, NoDup (labels_in l).
Proof. intros. apply NoDup_filter, NoDup_nodup. Qed.

Lemma NoDup_two : forall (A B : list Z), NoDup A -> NoDup B -> (forall v, In v A -> ~ In v B) -> NoDup (A ++ B).
Proof.
  induction A as [|a A IH]; intros B NA NB H; cbn; auto. apply NoDup_cons_iff in NA. destruct NA as [Ha NA]. constructor.
  - rewrite in_app_iff. intros [X|X]; [auto|]. apply (H a); simpl; auto.
  - apply IH; auto. intros v Hv. apply H. simpl. auto.
Qed.

(** The labels [K] are replaced by one label [m]. *)
Lemma count_one : forall lab lab' K m, NoDup K -> (forall v, In v K -> v <> 0 /\ In v lab) -> m <> 0 -> (In m lab -> In m K) ->
  (forall v, v <> 0 -> (In v lab' <-> v = m \/ In v lab /\ ~ In v K)) ->
  (nclusters lab' + length K = nclusters lab + 1)%nat.
Proof.
  intros lab lab' K m NK HK Hm Hmk H. change (nclusters lab') with (length (labels_in lab')). change (nclusters lab) with (length (labels_in lab)).
  set (R := filter (fun v => negb (existsb (Z.eqb v) K)) (labels_in lab)).
  assert (HR : forall v, In v R <-> v <> 0 /\ In v lab /\ ~ In v K).
  { intros v. unfold R. rewrite filter_In, labels_in_In, negb_true_iff, existsb_eqb_false. tauto. }
  assert (NR : NoDup R) by (apply NoDup_filter, labels_in_NoDup).
  assert (P1 : Permutation (labels_in lab) (K ++ R)).
  { apply NoDup_Permutation; [apply labels_in_NoDup| |].
    - apply NoDup_two; auto. intros v Hv X. apply HR in X. tauto.
    - intros v. rewrite in_app_iff, labels_in_In, HR. split.
      + intros [A B]. destruct (in_dec Z.eq_dec v K); tauto.
      + intros [A|A]; [apply HK; auto|tauto]. }
  assert (P2 : Permutation (labels_in lab') (m :: R)).
  { apply NoDup_Permutation; [apply labels_in_NoDup| |].
    - constructor; auto. rewrite HR. tauto.
    - intros v. cbn [In]. rewrite labels_in_In, HR. split.
      + intros [A B]. apply H in B; auto. intuition congruence.
      + intros [<-|(A & B & C)]; (split; [auto|apply H; auto]). }
  rewrite (Permutation_length P1), (Permutation_length P2), app_length. cbn [length]. lia.
Qed.

(** ** One pixel *)

Lemma apoint_one : forall g lab new p (adj : Z -> Prop), nb_ok g -> AI (zprod (g_shape g)) (lab, new) -> pixel (g_shape g) p ->
  (forall q, pixel (g_shape g) q -> q <> p -> (In q (nb g p) <-> adj q)) ->
  adds_one adj (g_shape g) p lab (fst (apoint g (lab, new) p)) /\
  (zn lab p = 0 -> (forall v, ~ touching adj (g_shape g) lab v) -> zn (fst (apoint g (lab, new) p)) p = new).
Proof.
  intros g lab new p adj Hok HA Hp Hadj. pose proof (ai_len _ _ HA) as HL. pose proof (ai_new _ _ HA) as HN. pose proof (ai_rng _ _ HA) as HB.
  cbn [fst snd] in *. unfold apoint. cbn [fst snd]. unfold pixel in *.
  destruct (Z.eqb_spec (zn lab p) 0) as [E|E].
  2:{ cbn [fst]. split; [|tauto]. unfold adds_one. split; auto. split; auto. repeat split; intros; contradiction. }
  cbn [fst].
  assert (T : forall v, touching adj (g_shape g) lab v <-> In v (near (nb g p) lab)).
  { intros v. rewrite near_In. unfold touching, pixel. split; intros (Hv & q & H).
    - destruct H as (Hq & Ha & Eq). split; auto. exists q. split; auto. apply Hadj; auto. intros ->. congruence.
    - destruct H as (Hq & Eq). split; auto. exists q. pose proof (nb_range g p q Hok Hp Hq) as R. split; auto. split; auto.
      apply Hadj; auto. intros ->. congruence. }
  assert (MEM : forall v, existsb (Z.eqb v) (near (nb g p) lab) = true <-> touching adj (g_shape g) lab v) by (intros; rewrite T; apply existsb_eqb).
  assert (HIN : forall v, In v lab <-> exists q, 0 <= q < zprod (g_shape g) /\ zn lab q = v).
  { intros v. rewrite <- HL. split; [apply In_zn|]. intros (q & Hq & <-). apply zn_In; auto. }
  destruct (near (nb g p) lab) as [|r0 C0] eqn:EC.
  - assert (NT : forall v, ~ touching adj (g_shape g) lab v) by (intros v X; apply T in X; destruct X).
    set (lab' := a_rep (nb g p) lab new p).
    assert (V : forall q, 0 <= q < zprod (g_shape g) -> zn lab' q = if p =? q then new else zn lab q).
    { intros q Hq. unfold lab', a_rep. rewrite EC. apply zn_upd; lia. }
    assert (HL' : lenZ lab' = lenZ lab) by apply a_rep_len.
    split; [|intros _ _; rewrite V, Z.eqb_refl by auto; auto].
    unfold adds_one. split; auto. split; [intros; contradiction|]. split; [|split].
    + intros _ _ q Hq. split; [rewrite (V p), Z.eqb_refl by auto; apply HB; auto|]. intros Hne. rewrite V by auto. destruct (Z.eqb_spec p q); [congruence|auto].
    + intros _ v Hv. destruct (NT v Hv).
    + intros _ K NK HK.
      assert (HK0 : forall v, ~ In v K) by (intros v X; apply HK in X; apply (NT v X)).
      apply (count_one lab lab' K new); auto; try lia.
      * intros v X. destruct (HK0 v X).
      * intros X. exfalso. apply HIN in X. destruct X as (q & Hq & Eq). pose proof (HB q Hq). lia.
      * intros v Hv. split.
        -- intros X. apply In_zn in X. destruct X as (q & Hq & Eq). rewrite HL', HL in Hq. rewrite V in Eq by auto.
           destruct (p =? q); auto. right. split; auto. apply HIN. eauto.
        -- intros [->|[X _]].
           ++ replace new with (zn lab' p) by (rewrite V, Z.eqb_refl by auto; auto). apply zn_In. lia.
           ++ apply HIN in X. destruct X as (q & Hq & <-). replace (zn lab q) with (zn lab' q); [apply zn_In; lia|].
              rewrite V by auto. destruct (Z.eqb_spec p q); [subst; congruence|auto].
  - set (C := near (nb g p) lab) in *. assert (HC : C <> []) by (rewrite EC; discriminate). rewrite <- EC in *. clear EC r0 C0.
    destruct (zmin_spec C HC) as [Z1 Z2].
    set (lab' := a_rep (nb g p) lab new p).
    assert (V : forall q, 0 <= q < zprod (g_shape g) -> zn lab' q = if p =? q then zmin C else if existsb (Z.eqb (zn lab q)) C then zmin C else zn lab q).
    { intros q Hq. unfold lab', a_rep. fold C. destruct C as [|c0 C1] eqn:EE; [congruence|]. rewrite <- EE in *.
      rewrite zn_upd by (unfold lenZ in *; rewrite ?map_length; lia). rewrite zn_map by lia. reflexivity. }
    assert (HL' : lenZ lab' = lenZ lab) by apply a_rep_len.
    assert (TM : touching adj (g_shape g) lab (zmin C)) by (apply T; auto).
    split; [|intros _ NT; destruct (NT _ TM)].
    unfold adds_one. split; auto. split; [intros; contradiction|]. split; [|split].
    + intros _ NT. destruct (NT _ TM).
    + intros _ v Hv Hmin q Hq.
      assert (v = zmin C). { pose proof (Hmin _ TM). pose proof (Z2 v (proj1 (T v) Hv)). lia. }
      subst v. rewrite V by auto. destruct (Z.eqb_spec p q) as [->|Hne]; [split; [auto|congruence]|].
      destruct (existsb (Z.eqb (zn lab q)) C) eqn:X.
      * split; auto. intros _ Y. apply MEM in X. contradiction.
      * split; auto. intros [->|Y]; [congruence|]. apply MEM in Y. congruence.
    + intros _ K NK HK.
      apply (count_one lab lab' K (zmin C)); auto.
      * intros v X. apply HK in X. destruct X as (Hv & q & Hq & _ & Eq). split; auto. apply HIN. eauto.
      * apply TM.
      * intros _. apply HK. auto.
      * intros v Hv. split.
        -- intros X. apply In_zn in X. destruct X as (q & Hq & Eq). rewrite HL', HL in Hq. rewrite V in Eq by auto.
           destruct (p =? q); auto. destruct (existsb (Z.eqb (zn lab q)) C) eqn:X; auto.
           right. split; [apply HIN; eauto|]. rewrite HK, <- Eq, <- MEM. congruence.
        -- intros [->|[X Y]].
           ++ replace (zmin C) with (zn lab' p) by (rewrite V, Z.eqb_refl by auto; auto). apply zn_In. lia.
           ++ apply HIN in X. destruct X as (q & Hq & <-). replace (zn lab q) with (zn lab' q); [apply zn_In; lia|].
              rewrite V by auto. destruct (Z.eqb_spec p q); [subst; congruence|].
              destruct (existsb (Z.eqb (zn lab q)) C) eqn:X; auto. exfalso. apply Y, HK, MEM. auto.
Qed.

(** ** Histories *)

Lemma run_one : forall asrt g ops p (adj : Z -> Prop), wf g -> Forall (legal (g_shape g)) ops -> pixel (g_shape g) p ->
  (forall q, pixel (g_shape g) q -> q <> p -> (In q (nb g p) <-> adj q)) ->
  exists s s' outs outs', run asrt g ops = Ok (s, outs) /\ run asrt g (ops ++ [AddPoints [p]]) = Ok (s', outs') /\
    adds_one adj (g_shape g) p (c_label s) (c_label s').
Proof.
  intros asrt g ops p adj HW Hops Hp Hadj. destruct (run_ok asrt g ops HW Hops) as (s & outs & E & HQ & _).
  destruct (add_points_ok asrt g s [p] HW HQ) as (s' & E' & HQ' & EA). { intros q [<-|[]]. exact Hp. }
  exists s, s', outs, (outs ++ [[]]). split; auto. split.
  - unfold run in *. rewrite run_from_app, E, bind_Ok. cbn [fst snd run_from step]. rewrite E', !bind_Ok. reflexivity.
  - cbn [apoints fold_left] in EA.
    replace (c_label s') with (fst (apoint g (c_label s, c_new s) p)) by (change (fold_left (apoint g) [p] (c_label s, c_new s)) with (apoint g (c_label s, c_new s) p) in EA; rewrite <- EA; reflexivity).
    apply apoint_one; auto using wf_nb_ok, Q_AI.
Qed.

Lemma run_next : forall asrt g ops p (adj : Z -> Prop), wf g -> Forall (legal (g_shape g)) ops -> pixel (g_shape g) p ->
  (forall q, pixel (g_shape g) q -> q <> p -> (In q (nb g p) <-> adj q)) ->
  exists s s' outs outs', run asrt g (ops ++ [Prune]) = Ok (s, outs) /\ run asrt g (ops ++ [Prune; AddPoints [p]]) = Ok (s', outs') /\
    (zn (c_label s) p = 0 -> (forall v, ~ touching adj (g_shape g) (c_label s) v) -> zn (c_label s') p = Z.of_nat (nclusters (c_label s)) + 1).
Proof.
  intros asrt g ops p adj HW Hops Hp Hadj. destruct (run_ok asrt g ops HW Hops) as (s0 & outs & E & HQ & _).
  destruct (prune_ok _ s0 HQ) as (s & EP & HQs & LP & NP).
  destruct (add_points_ok asrt g s [p] HW HQs) as (s' & E' & HQ' & EA). { intros q [<-|[]]. exact Hp. }
  exists s, s', (outs ++ [[]]), (outs ++ [[]; []]). split; [|split].
  - unfold run in *. rewrite run_from_app, E, bind_Ok. cbn [fst snd run_from step]. rewrite EP, !bind_Ok. reflexivity.
  - unfold run in *. rewrite run_from_app, E, bind_Ok. cbn [fst snd run_from step]. rewrite EP, !bind_Ok, E', !bind_Ok. reflexivity.
  - intros H0 HT. change (apoints g [p] (c_label s, c_new s)) with (apoint g (c_label s, c_new s) p) in EA.
    replace (c_label s') with (fst (apoint g (c_label s, c_new s) p)) by (rewrite <- EA; reflexivity).
    destruct (apoint_one g (c_label s) (c_new s) p adj (wf_nb_ok g HW) (Q_AI _ _ HQs) Hp Hadj) as [_ K].
    rewrite K by auto. rewrite NP.
    assert (Z.of_nat (nclusters (c_label s)) = lenZ (used (c_label s0))); [|lia].
    destruct (prune_ok _ s HQs) as (t & EP2 & _ & LP2 & NP2). destruct (prune_spec g s0 HW HQ) as (s1 & EP1 & _ & _ & _ & HV & _).
    assert (s1 = s) by congruence. subst s1. rewrite nclusters_used in *.
    set (m := lenZ (used (c_label s0))) in *. set (m' := lenZ (used (c_label s))).
    assert (W : forall v, 1 <= v <= m <-> v <> 0 /\ In v (c_label s)).
    { intros v. rewrite HV. split; intros [A B]; (split; [auto|]).
      - destruct B as (q & Hq & <-). apply zn_In. rewrite (iv_len _ _ (proj1 HQs)). exact Hq.
      - apply In_zn in B. destruct B as (q & Hq & Eq). exists q. split; auto. rewrite (iv_len _ _ (proj1 HQs)) in Hq. exact Hq. }
    assert (P : Permutation (labels_in (c_label s)) (zseq 1 (Z.to_nat m))).
    { apply NoDup_Permutation; [apply labels_in_NoDup|apply zseq_NoDup|]. intros v. rewrite labels_in_In, <- W, zseq_In.
      assert (0 <= m) by (unfold m, lenZ; lia). lia. }
    pose proof (nclusters_used (c_label s)) as NU. fold m' in NU. rewrite <- NU. change (nclusters (c_label s)) with (length (labels_in (c_label s))).
    rewrite (Permutation_length P), zseq_length. unfold m, lenZ. lia.
Qed.

Lemma default_nb : forall shape per g p q, good_shape shape -> (length shape <= 3)%nat -> make_default shape per = Ok g -> pixel shape p -> pixel shape q -> q <> p ->
  (In q (nb g p) <-> face_neighbour per shape p q).
Proof.
  intros shape per g p q HS HL E Hp Hq Hne. destruct (make_default_ok shape per HS HL) as (g' & E' & W & Es & Ep & _ & Hin & Hnb).
  assert (g' = g) by congruence. subst g'. assert (0 < zprod shape) by (unfold pixel in Hp; lia).
  rewrite nb_spec; rewrite ?Es; auto. rewrite <- Hnb, Es. tauto.
Qed.

Lemma kernel_nb : forall asrt shape per ks kv g p q, good_shape shape -> good_kernel shape ks kv -> offsets_in_range per shape (set_offset ks kv) ->
  make_kernel asrt shape per ks kv = Ok g -> pixel shape p -> pixel shape q -> q <> p -> (In q (nb g p) <-> kernel_neighbour per shape ks kv p q).
Proof.
  intros asrt shape per ks kv g p q HS HK HR E Hp Hq Hne.
  destruct (make_kernel_ok asrt shape per ks kv HS HK) as (g' & E' & W & Es & Ep & HD). assert (g' = g) by congruence. subst g'.
  pose proof (kernel_in_range shape per ks kv g Es Ep (proj1 HK) HD HR) as I.
  rewrite nb_spec; rewrite ?Es; auto. rewrite <- (kernel_neighbour_dx shape per ks kv g HS Es Ep HD p q) by auto. rewrite Es. tauto.
Qed.

Lemma default_one : forall asrt shape per ops p, good_shape shape -> (length shape <= 3)%nat -> Forall (legal shape) ops -> pixel shape p ->
  exists g s s' outs outs', make_default shape per = Ok g /\ run asrt g ops = Ok (s, outs) /\ run asrt g (ops ++ [AddPoints [p]]) = Ok (s', outs') /\
    adds_one (face_neighbour per shape p) shape p (c_label s) (c_label s').
Proof.
  intros asrt shape per ops p HS HL Hops Hp. destruct (make_default_ok shape per HS HL) as (g & E & W & Es & _).
  destruct (run_one asrt g ops p (face_neighbour per shape p) W) as (s & s' & outs & outs' & K); rewrite ?Es; auto.
  - intros q Hq Hne. apply default_nb; auto.
  - exists g, s, s', outs, outs'. rewrite Es in K. auto.
Qed.

Lemma kernel_one : forall asrt shape per ks kv ops p, good_shape shape -> good_kernel shape ks kv -> offsets_in_range per shape (set_offset ks kv) ->
  Forall (legal shape) ops -> pixel shape p ->
  exists g s s' outs outs', make_kernel asrt shape per ks kv = Ok g /\ run asrt g ops = Ok (s, outs) /\ run asrt g (ops ++ [AddPoints [p]]) = Ok (s', outs') /\
    adds_one (kernel_neighbour per shape ks kv p) shape p (c_label s) (c_label s').
Proof.
  intros asrt shape per ks kv ops p HS HK HR Hops Hp. destruct (make_kernel_ok asrt shape per ks kv HS HK) as (g & E & W & Es & _).
  destruct (run_one asrt g ops p (kernel_neighbour per shape ks kv p) W) as (s & s' & outs & outs' & K); rewrite ?Es; auto.
  - intros q Hq Hne. apply (kernel_nb asrt); auto.
  - exists g, s, s', outs, outs'. rewrite Es in K. auto.
Qed.

Lemma default_next : forall asrt shape per ops p, good_shape shape -> (length shape <= 3)%nat -> Forall (legal shape) ops -> pixel shape p ->
  exists g s s' outs outs', make_default shape per = Ok g /\ run asrt g (ops ++ [Prune]) = Ok (s, outs) /\
    run asrt g (ops ++ [Prune; AddPoints [p]]) = Ok (s', outs') /\
    (zn (c_label s) p = 0 -> (forall q, face_neighbour per shape p q -> zn (c_label s) q = 0) ->
       zn (c_label s') p = Z.of_nat (nclusters (c_label s)) + 1).
Proof.
  intros asrt shape per ops p HS HL Hops Hp. destruct (make_default_ok shape per HS HL) as (g & E & W & Es & _).
  destruct (run_next asrt g ops p (face_neighbour per shape p) W) as (s & s' & outs & outs' & R & R' & K); rewrite ?Es; auto.
  - intros q Hq Hne. apply default_nb; auto.
  - exists g, s, s', outs, outs'. rewrite Es in K. split; auto. split; auto. split; auto.
    intros H0 H. apply K; auto. intros v (Hv & q & _ & Ha & Eq). apply Hv. rewrite <- Eq. auto.
Qed.

Lemma kernel_next : forall asrt shape per ks kv ops p, good_shape shape -> good_kernel shape ks kv -> offsets_in_range per shape (set_offset ks kv) ->
  Forall (legal shape) ops -> pixel shape p ->
  exists g s s' outs outs', make_kernel asrt shape per ks kv = Ok g /\ run asrt g (ops ++ [Prune]) = Ok (s, outs) /\
    run asrt g (ops ++ [Prune; AddPoints [p]]) = Ok (s', outs') /\
    (zn (c_label s) p = 0 -> (forall q, kernel_neighbour per shape ks kv p q -> zn (c_label s) q = 0) ->
       zn (c_label s') p = Z.of_nat (nclusters (c_label s)) + 1).
Proof.
  intros asrt shape per ks kv ops p HS HK HR Hops Hp. destruct (make_kernel_ok asrt shape per ks kv HS HK) as (g & E & W & Es & _).
  destruct (run_next asrt g ops p (kernel_neighbour per shape ks kv p) W) as (s & s' & outs & outs' & R & R' & K); rewrite ?Es; auto.
  - intros q Hq Hne. apply (kernel_nb asrt); auto.
  - exists g, s, s', outs, outs'. rewrite Es in K. split; auto. split; auto. split; auto.
    intros H0 H. apply K; auto. intros v (Hv & q & _ & Ha & Eq). apply Hv. rewrite <- Eq. auto.
Qed.
