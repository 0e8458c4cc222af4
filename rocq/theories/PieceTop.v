(** * PieceTop: dilation keeps clusters in one piece (proofs only) *)

From Coq Require Import ZArith QArith Qcanon List Bool Lia Permutation.
From Verif Require Import Base BaseLemmas Cluster SpecCluster ClusterGeom ClusterAbs ClusterRun ClusterMain ClusterTop Kernel Array3 Dilate SpecDilate DilateTop SpecDilateRule DilateRule Ensemble SpecEnsemble EnsembleSums
  SpecSymmetry DerivedCluster DerivedDilate SpecTile TileTop TileMore SpecPiece.
Import ListNotations.
Open Scope Z_scope.

(** ** Labels *)

Lemma grown_source : forall per shape f ks kv iterations k g g' q, dilatable per shape f ks kv iterations -> lenZ g = lenZ f ->
  grown per shape ks kv iterations k g g' -> pixel shape q -> zn g' q <> 0 ->
  zn g' q = zn g q \/ (zn g q = 0 /\ exists p, kernel_step per shape ks kv p q /\ zn g p = zn g' q).
Proof.
  intros per shape f ks kv iterations k g g' q HD Lg [La HA] Hq NZ. pose proof HD as (_ & (Hpos & Lf) & _).
  destruct (HA q Hq) as (A1 & A2 & A3). destruct (Z.eq_dec (zn g q) 0) as [E|N]; [|left; auto]. right. split; auto.
  destruct (last_below (fun p => donor per shape ks kv iterations k g p q) (zprod shape)) as [ND|(p & Rp & D & M)].
  - unfold pixel in Hq. lia.
  - intros p _. unfold donor. apply and_dec; [exact (kernel_step_dec _ _ _ _ _ _ p q HD)|]. apply and_dec; lia.
  - exfalso. apply NZ. apply A2; auto. intros p D. pose proof D as ((X & _) & _). exact (ND p X D).
  - exists p. split; [apply D|]. symmetry. apply A3; auto. intros p' D'. pose proof D' as ((X & _) & _). exact (M p' X D').
Qed.

Lemma grown_piece : forall per shape f ks kv iterations k g g' l (adj : Z -> Z -> Prop), dilatable per shape f ks kv iterations -> lenZ g = lenZ f ->
  (forall p q, kernel_step per shape ks kv p q -> p <> q -> adj p q /\ adj q p) -> l <> 0 ->
  grown per shape ks kv iterations k g g' -> in_one_piece adj shape g l -> in_one_piece adj shape g' l.
Proof.
  intros per shape f ks kv iterations k g g' l adj HD Lg HA NL HG HP.
  assert (K : forall x, pixel shape x -> zn g x = l -> zn g' x = l).
  { intros x Hx Ex. destruct HG as [_ HG]. destruct (HG x Hx) as (A1 & _). rewrite A1; auto. lia. }
  assert (S : forall q, pixel shape q -> zn g' q = l -> exists p, pixel shape p /\ zn g p = l /\
            linked adj (fun x => pixel shape x /\ zn g' x = l) p q /\ linked adj (fun x => pixel shape x /\ zn g' x = l) q p).
  { intros q Hq Eq. destruct (grown_source _ _ _ _ _ _ _ _ _ q HD Lg HG Hq ltac:(lia)) as [E|(E0 & p & KS & Ep)].
    - exists q. split; auto. split; [lia|]. split; constructor; auto.
    - pose proof KS as (Hp & _). exists p. split; auto. split; [lia|]. assert (Ep' : zn g' p = l) by (apply K; auto; lia).
      destruct (HA p q KS) as [A B]; [intros ->; lia|]. split; [apply linked_step with (q := q); auto; constructor; auto|apply linked_step with (q := p); auto; constructor; auto]. }
  intros p q Hp Hq Ep Eq. destruct (S p Hp Ep) as (p0 & Hp0 & Ep0 & _ & L1). destruct (S q Hq Eq) as (q0 & Hq0 & Eq0 & L2 & _).
  eapply linked_trans; [exact L1|]. eapply linked_trans; [|exact L2]. eapply linked_mono; [| |apply HP; auto]; auto. cbn beta. intros x [Hx Ex]. auto.
Qed.

Lemma grows_piece : forall per shape f ks kv iterations n g g' l (adj : Z -> Z -> Prop), dilatable per shape f ks kv iterations -> lenZ g = lenZ f ->
  (forall p q, kernel_step per shape ks kv p q -> p <> q -> adj p q /\ adj q p) -> l <> 0 ->
  grows per shape ks kv iterations n g g' -> in_one_piece adj shape g l -> in_one_piece adj shape g' l.
Proof.
  intros per shape f ks kv iterations n g g' l adj HD Lg HA NL HG HP. induction HG as [|n g g' g'' Hn HG IH H]; auto.
  destruct (grows_len _ _ _ _ _ _ _ _ HG) as [L _].
  apply (grown_piece per shape f ks kv iterations n g' g'' l adj HD); auto. congruence.
Qed.

Lemma piece_labels : forall asrt shape f ks kv iterations (adj : Z -> Z -> Prop), dilatable false shape f ks kv iterations ->
  (forall p q, kernel_step false shape ks kv p q -> p <> q -> adj p q /\ adj q p) ->
  exists ret, dilate asrt shape f ks kv iterations false = Ok ret /\ forall l, l <> 0 -> in_one_piece adj shape f l -> in_one_piece adj shape ret l.
Proof.
  intros asrt shape f ks kv iterations adj HD HA. destruct (rule_ok asrt shape f ks kv iterations HD) as (ret & n & E & _ & _ & G). exists ret. split; auto.
  intros l NL HP. eapply grows_piece; eauto.
Qed.

Lemma piece_default : forall asrt shape f iterations, (1 <= length shape <= 2)%nat -> image shape f -> iterations <> [] -> (forall n, In n iterations -> 0 <= n) ->
  (forall l, In l f -> 0 <= l < lenZ iterations) ->
  exists ret, dilate_default asrt shape f iterations false = Ok ret /\
    forall l, l <> 0 -> in_one_piece (face_neighbour false shape) shape f l -> in_one_piece (face_neighbour false shape) shape ret l.
Proof.
  intros asrt shape f iterations HL HI H1 H2 H3. destruct (nearest_step asrt shape false HL (proj1 HI)) as (kv & EN & HK & H01 & HS).
  destruct (piece_labels asrt shape f (repeat 3 (length shape)) kv iterations (face_neighbour false shape)) as (ret & E & P).
  - unfold dilatable. split; [lia|]. split; auto. split; [apply repeat_length|]. split; auto. split; auto. split; [discriminate|]. auto.
  - intros p q KS NE. apply HS in KS. destruct KS as [[E _]|F]; [congruence|]. split; auto. apply face_neighbour_back; auto. apply pos1. apply HI.
  - exists ret. split; auto. unfold dilate_default. rewrite EN, bind_Ok. exact E.
Qed.

Lemma piece_default3 : forall asrt shape f iterations, length shape = 3%nat -> image shape f -> iterations <> [] -> (forall n, In n iterations -> 0 <= n) ->
  (forall l, In l f -> 0 <= l < lenZ iterations) ->
  exists ret, dilate_default asrt shape f iterations false = Ok ret /\
    forall l, l <> 0 -> in_one_piece (face_or_edge false shape) shape f l -> in_one_piece (face_or_edge false shape) shape ret l.
Proof.
  intros asrt shape f iterations HL HI H1 H2 H3. destruct (piece_labels asrt shape f [3;3;3] nearest3 iterations (face_or_edge false shape)) as (ret & E & P).
  - unfold dilatable. split; [lia|]. split; auto. split; auto. split; [split; [repeat constructor; lia|reflexivity]|]. split; [intros k Hk; unfold nearest3 in Hk; cbn [In] in Hk; clear -Hk; intuition lia|]. split; [discriminate|]. auto.
  - intros p q (Hp & Hq & d & Hd & M) _. apply nearest3_offset in Hd. destruct Hd as (d0 & d1 & d2 & -> & A & B & C & D).
    split; (split; [assumption|]); (split; [assumption|]).
    + exists d0, d1, d2. auto.
    + exists (- d0), (- d1), (- d2). do 3 (split; [lia|]). split; [lia|]. change [- d0; - d1; - d2] with (map Z.opp [d0; d1; d2]).
      apply moved_sym; auto; apply coords_inside; auto; apply pos1; apply HI.
  - exists ret. split; auto. unfold dilate_default. rewrite HL. assert (EN : nearest asrt 3 = Ok ([3;3;3], nearest3)) by (destruct asrt; reflexivity). rewrite EN, bind_Ok. exact E.
Qed.

(** ** Foreground *)

Definition stepped (per : bool) (n x d y : Z) : Prop := if per then y = (x + d) mod n else y = x + d.

Lemma stepped_case : forall per n x d y, 0 <= x < n -> -1 <= d <= 1 -> stepped per n x d y ->
  x = y \/ (if per then y = (x + 1) mod n \/ y = (x - 1) mod n else y = x + 1 \/ y = x - 1).
Proof.
  intros per n x d y Hx Hd S. assert (C : d = -1 \/ d = 0 \/ d = 1) by lia. unfold stepped in S. destruct per.
  - destruct C as [->|[->| ->]]; [right; right; exact S|left; rewrite Z.add_0_r, Z.mod_small in S by lia; auto|right; left; exact S].
  - lia.
Qed.

Lemma stepped_stay : forall per n x, 0 <= x < n -> stepped per n x 0 x.
Proof. intros [] n x Hx; unfold stepped; [rewrite Z.add_0_r, Z.mod_small; lia|lia]. Qed.

Lemma edge_linked : forall per shape (A : Z -> Prop) p q, length shape = 3%nat -> Forall (fun n => 0 < n) shape -> face_or_edge per shape p q -> A p ->
  (forall x, face_or_edge per shape p x -> A x) -> linked (face_neighbour per shape) A p q.
Proof.
  intros per shape A p q HL HS (Hp & Hq & d0 & d1 & d2 & R0 & R1 & R2 & RZ & M) Ap AX.
  destruct shape as [|n0 [|n1 [|n2 [|]]]]; try discriminate. set (shape := [n0; n1; n2]) in *.
  assert (Ip : inside shape (coords shape p)) by (apply coords_inside; auto). assert (Iq : inside shape (coords shape q)) by (apply coords_inside; auto).
  destruct (coords shape p) as [|x0 [|x1 [|x2 [|]]]] eqn:Cp; try (exfalso; cbn [inside shape] in Ip; tauto).
  destruct (coords shape q) as [|y0 [|y1 [|y2 [|]]]] eqn:Cq; try (exfalso; cbn [inside shape] in Iq; tauto).
  cbn [inside shape] in Ip, Iq. destruct Ip as (X0 & X1 & X2 & _), Iq as (Y0 & Y1 & Y2 & _).
  assert (M' : stepped per n0 x0 d0 y0 /\ stepped per n1 x1 d1 y1 /\ stepped per n2 x2 d2 y2) by (cbn [moved shape] in M; unfold stepped; tauto). destruct M' as (S0 & S1 & S2).
  destruct (pixel_of_coords shape [y0; x1; x2]) as (m1 & P1 & C1); [cbn [inside shape]; tauto|].
  destruct (pixel_of_coords shape [y0; y1; x2]) as (m2 & P2 & C2); [cbn [inside shape]; tauto|].
  assert (F : forall m e0 e1 e2 z0 z1 z2, pixel shape m -> coords shape m = [z0; z1; z2] -> -1 <= e0 <= 1 -> -1 <= e1 <= 1 -> -1 <= e2 <= 1 -> (e0 = 0 \/ e1 = 0 \/ e2 = 0) ->
    stepped per n0 x0 e0 z0 -> stepped per n1 x1 e1 z1 -> stepped per n2 x2 e2 z2 -> A m).
  { intros m e0 e1 e2 z0 z1 z2 Hm Cm E0 E1 E2 EZ T0 T1 T2. apply AX. split; auto. split; auto. exists e0, e1, e2. do 4 (split; [assumption|]). rewrite Cp, Cm. cbn [moved shape]. auto. }
  assert (A1 : A m1) by (apply (F m1 d0 0 0 y0 x1 x2); auto using stepped_stay; lia).
  assert (A2 : A m2) by (apply (F m2 d0 d1 0 y0 y1 x2); auto using stepped_stay; lia).
  assert (A3 : A q) by (apply (F q d0 d1 d2 y0 y1 y2); auto).
  assert (HOP : forall u v, pixel shape u -> pixel shape v -> A u -> A v -> (coords shape u = coords shape v \/ face per shape (coords shape u) (coords shape v)) -> linked (face_neighbour per shape) A u v).
  { intros u v Hu Hv Au Av [E|E].
    - apply coords_inj in E; auto. subst v. constructor. auto.
    - apply linked_step with (q := v); auto; [split; auto|constructor; auto]. }
  apply linked_trans with m1; [|apply linked_trans with m2].
  - apply HOP; auto. rewrite Cp, C1. destruct (stepped_case _ _ _ _ _ X0 R0 S0) as [->|S]; [left; auto|right]. cbn [face shape]. right. auto.
  - apply HOP; auto. rewrite C1, C2. destruct (stepped_case _ _ _ _ _ X1 R1 S1) as [->|S]; [left; auto|right]. cbn [face shape]. left. split; auto.
  - apply HOP; auto. rewrite C2, Cq. destruct (stepped_case _ _ _ _ _ X2 R2 S2) as [->|S]; [left; auto|right]. cbn [face shape]. left. split; auto.
Qed.

Lemma reaches_linked : forall per shape (adj : Z -> Z -> Prop) (S : Z -> Prop) n, 0 <= n ->
  (forall (A : Z -> Prop) p q, adj p q -> A p -> (forall x, adj p x -> A x) -> linked (face_neighbour per shape) A p q) ->
  forall k q, SpecDilate.reaches adj S k q -> k <= n -> exists s, S s /\ linked (face_neighbour per shape) (SpecDilate.reaches adj S n) s q.
Proof.
  intros per shape adj S n Hn HA k q R. induction R; intros Hk.
  - exists p. split; auto. constructor. apply reaches_start; auto.
  - destruct IHR as (s & Hs & L); [lia|]. exists s. split; auto. eapply linked_trans; [exact L|]. apply HA; auto.
    + eapply reaches_weaken; [exact R|lia].
    + intros x Hx. eapply reaches_weaken; [eapply reaches_step; eauto|lia].
Qed.

(** The number of clusters is the number of first pixels. *)
Lemma leaders_count : forall shape lab n, (forall v, 1 <= v <= n <-> v <> 0 /\ exists p, pixel shape p /\ zn lab p = v) ->
  lenZ (filter (leads lab) (pixels shape)) = Z.max 0 n.
Proof.
  intros shape lab n N1. set (reps := filter (leads lab) (pixels shape)).
  assert (RD : NoDup (map (zn lab) reps)).
  { apply NoDup_map_on; [|apply NoDup_filter, zrange_NoDup]. intros x y Hx Hy EQ. apply filter_In in Hx. apply filter_In in Hy. destruct Hx as [Hx Lx], Hy as [Hy Ly]. apply zrange_In in Hx. apply zrange_In in Hy.
    eapply leads_one; eauto; lia. }
  assert (R1 : forall v, In v (map (zn lab) reps) <-> 1 <= v <= n).
  { intros v. rewrite N1, in_map_iff. split.
    - intros (p & <- & IN). apply filter_In in IN. destruct IN as [IN Lp]. apply zrange_In in IN. split; [|exists p; split; auto]. unfold leads in Lp. apply andb_true_iff in Lp. destruct Lp as [Lp _]. apply negb_true_iff, Z.eqb_neq in Lp. auto.
    - intros (NV & p & Hp & <-). destruct (leader lab (zprod shape) p Hp NV) as (r & Hr & Lr & Er). exists r. split; auto. apply filter_In. split; auto. apply zrange_In. auto. }
  assert (P : Permutation (map (zn lab) reps) (zrange 1 (n + 1))).
  { apply NoDup_Permutation; auto; [apply zrange_NoDup|]. intros v. rewrite R1, zrange_In. lia. }
  apply Permutation_length in P. rewrite map_length in P. unfold lenZ. rewrite P. unfold zrange. rewrite zseq_length. lia.
Qed.

Lemma piece_foreground : forall asrt shape f n per, good_shape shape -> (length shape <= 3)%nat -> image shape f -> (forall l, In l f -> 0 <= l < 2 ^ 62) -> 0 <= n ->
  exists ret lab lab' m m', dilate_default_n asrt shape f n per = Ok ret /\ clusters asrt shape f per = Ok lab /\ clusters asrt shape ret per = Ok lab' /\
    (forall p q, pixel shape p -> pixel shape q -> zn lab p <> 0 -> zn lab p = zn lab q -> zn lab' p <> 0 /\ zn lab' p = zn lab' q) /\
    (forall q, pixel shape q -> zn lab' q <> 0 -> exists p, pixel shape p /\ zn lab p <> 0 /\ zn lab' p = zn lab' q) /\
    (forall v, 1 <= v <= m <-> v <> 0 /\ exists p, pixel shape p /\ zn lab p = v) /\
    (forall v, 1 <= v <= m' <-> v <> 0 /\ exists p, pixel shape p /\ zn lab' p = v) /\ 0 <= m' <= m.
Proof.
  intros asrt shape f n per HG H3 HI Hl Hn. pose proof HI as [HS Lf]. pose proof (pos1 _ HS) as HS0.
  assert (H1 : (1 <= length shape)%nat) by (destruct HG as (G & _); destruct shape; [tauto|cbn; lia]).
  assert (X : exists ret, dilate_default_n asrt shape f n per = Ok ret /\ lenZ ret = lenZ f /\
    (forall p, pixel shape p -> zn f p <> 0 -> zn ret p <> 0) /\
    (forall q, pixel shape q -> zn ret q <> 0 -> exists s, (pixel shape s /\ zn f s <> 0) /\ linked (face_neighbour per shape) (fun x => pixel shape x /\ zn ret x <> 0) s q)).
  { assert (GEN : forall (adj : Z -> Z -> Prop) ret, lenZ ret = lenZ f -> (forall p q, adj p q -> pixel shape p /\ pixel shape q) ->
      (forall (A : Z -> Prop) p q, adj p q -> A p -> (forall x, adj p x -> A x) -> linked (face_neighbour per shape) A p q) ->
      (forall p, pixel shape p -> (zn ret p <> 0 <-> SpecDilate.reaches adj (fun x => pixel shape x /\ zn f x <> 0) n p)) ->
      (forall p, pixel shape p -> zn f p <> 0 -> zn ret p <> 0) /\
      (forall q, pixel shape q -> zn ret q <> 0 -> exists s, (pixel shape s /\ zn f s <> 0) /\ linked (face_neighbour per shape) (fun x => pixel shape x /\ zn ret x <> 0) s q)).
    { intros adj ret L HP HA R. split.
      - intros p Hp Np. apply R; auto. apply reaches_start; auto.
      - intros q Hq Nq. apply R in Nq; auto. destruct (reaches_linked per shape adj _ n Hn HA n q Nq ltac:(lia)) as (s & Hs & LK). exists s. split; auto.
        assert (PX : forall k x, SpecDilate.reaches adj (fun x => pixel shape x /\ zn f x <> 0) k x -> pixel shape x).
        { intros k x RX. destruct RX as [k p _ [Hp _]|k p q' _ AD]; auto. apply (HP _ _ AD). }
        eapply linked_mono; [| |exact LK]; auto. intros x RX. split; [eapply PX; eauto|]. apply R; auto. eapply PX; eauto. }
    destruct (Nat.eq_dec (length shape) 3) as [E3|N3].
    - destruct (dilate_default3 asrt shape f n per E3 HI Hl Hn) as (ret & E & L & R). exists ret. split; auto. split; auto. apply (GEN (face_or_edge per shape)); auto.
      + intros p q (A & B & _). auto.
      + intros A p q AD Ap AX. apply edge_linked; auto.
    - destruct (dilate_default_n_ok asrt shape f n per ltac:(lia) HI Hl Hn) as (ret & E & L & R). exists ret. split; auto. split; auto. apply (GEN (face_neighbour per shape)); auto.
      + intros p q (A & B & _). auto.
      + intros A p q AD Ap AX. apply linked_step with (q := q); auto. constructor. auto. }
  destruct X as (ret & E & Lr & FW & SRC).
  destruct (clusters_ok asrt shape f per HG) as (lab & E1 & Ll & Z1 & C1 & (m & N1) & _); auto.
  destruct (clusters_ok asrt shape ret per HG) as (lab' & E2 & Ll' & Z2 & C2 & (m' & N1') & _); auto; [congruence|].
  assert (A : forall p q, pixel shape p -> pixel shape q -> zn lab p <> 0 -> zn lab p = zn lab q -> zn lab' p <> 0 /\ zn lab' p = zn lab' q).
  { intros p q Hp Hq NP EQ. assert (Fp : zn f p <> 0) by (rewrite <- Z1; auto). assert (Fq : zn f q <> 0) by (rewrite <- Z1; auto; lia).
    split; [rewrite Z2; auto|]. apply C2; auto. apply C1 in EQ; auto. eapply linked_mono; [| |exact EQ]; auto. cbn beta. intros x [Hx Nx]. auto. }
  assert (B : forall q, pixel shape q -> zn lab' q <> 0 -> exists p, pixel shape p /\ zn lab p <> 0 /\ zn lab' p = zn lab' q).
  { intros q Hq NQ. rewrite Z2 in NQ by auto. destruct (SRC q Hq NQ) as (s & (Hs & Ns) & LK). exists s. split; auto. split; [rewrite Z1; auto|]. apply C2; auto. }
  exists ret, lab, lab', (Z.max 0 m), (Z.max 0 m'). do 3 (split; [assumption|]). split; auto. split; auto.
  split; [intros v; rewrite <- N1; lia|]. split; [intros v; rewrite <- N1'; lia|]. split; [lia|].
  rewrite <- (leaders_count shape lab m N1).
  assert (GI : incl (zrange 1 (m' + 1)) (map (zn lab') (filter (leads lab) (pixels shape)))).
  { intros v IN. apply zrange_In in IN. destruct (proj1 (N1' v)) as (NV & q & Hq & Ev); [lia|]. destruct (B q Hq) as (p & Hp & Np & Ep); [lia|].
    destruct (leader lab (zprod shape) p Hp Np) as (r & Hr & Lr' & Er). apply in_map_iff. exists r. destruct (A p r Hp Hr Np (eq_sym Er)) as [_ EE]. split; [congruence|]. apply filter_In. split; auto. apply zrange_In. auto. }
  pose proof (NoDup_incl_length (zrange_NoDup _ _) GI) as LE. rewrite map_length in LE. unfold zrange in LE at 1. rewrite zseq_length in LE. unfold lenZ. lia.
Qed.

(** ** Where a label comes apart *)

Lemma not_linked_alone : forall (adj : Z -> Z -> Prop) (A : Z -> Prop) p q, (forall x, A x -> adj p x -> x = p) -> linked adj A p q -> q = p.
Proof. intros adj A p q H L. induction L; auto. assert (q = p) by (apply H; auto; eapply linked_src; eauto). subst q. auto. Qed.

Lemma piece_periodic : exists shape f iterations ret l, image shape f /\ dilate_default true shape f iterations true = Ok ret /\ l <> 0 /\
  in_one_piece (face_neighbour true shape) shape f l /\ ~ in_one_piece (face_neighbour true shape) shape ret l.
Proof.
  exists [5], [0;1;0;2;0], [2;2;2], [2;1;2;2;1], 1. split; [split; [repeat constructor; lia|reflexivity]|]. split; [vm_compute; reflexivity|]. split; [lia|].
  assert (PX : forall x, pixel [5] x -> x = 0 \/ x = 1 \/ x = 2 \/ x = 3 \/ x = 4) by (intros x Hx; unfold pixel in Hx; cbn in Hx; lia). split.
  - intros p q Hp Hq Ep Eq. assert (p = 1) by (destruct (PX p Hp) as [->|[->|[->|[->| ->]]]]; vm_compute in Ep; lia). assert (q = 1) by (destruct (PX q Hq) as [->|[->|[->|[->| ->]]]]; vm_compute in Eq; lia).
    subst. constructor. auto.
  - intros H. assert (P1 : pixel [5] 1) by (unfold pixel; cbn; lia). assert (P4 : pixel [5] 4) by (unfold pixel; cbn; lia). specialize (H 1 4 P1 P4 eq_refl eq_refl).
    apply not_linked_alone in H; [lia|]. intros x [Hx Ex] (_ & _ & F). destruct (PX x Hx) as [->|[->|[->|[->| ->]]]]; vm_compute in Ex; try discriminate; auto.
    exfalso. vm_compute in F. destruct F as [[F _]|[[F|F] _]]; discriminate.
Qed.

Lemma piece_faces : exists shape f iterations ret l, image shape f /\ dilate_default true shape f iterations false = Ok ret /\ l <> 0 /\
  in_one_piece (face_neighbour false shape) shape f l /\ ~ in_one_piece (face_neighbour false shape) shape ret l.
Proof.
  exists [2;2;1], [0;2;2;1], [1;1;1], [1;2;2;1], 1. split; [split; [repeat constructor; lia|reflexivity]|]. split; [vm_compute; reflexivity|]. split; [lia|].
  assert (PX : forall x, pixel [2;2;1] x -> x = 0 \/ x = 1 \/ x = 2 \/ x = 3) by (intros x Hx; unfold pixel in Hx; cbn in Hx; lia). split.
  - intros p q Hp Hq Ep Eq. assert (p = 3) by (destruct (PX p Hp) as [->|[->|[->| ->]]]; vm_compute in Ep; lia). assert (q = 3) by (destruct (PX q Hq) as [->|[->|[->| ->]]]; vm_compute in Eq; lia).
    subst. constructor. auto.
  - intros H. assert (P1 : pixel [2;2;1] 0) by (unfold pixel; cbn; lia). assert (P4 : pixel [2;2;1] 3) by (unfold pixel; cbn; lia). specialize (H 0 3 P1 P4 eq_refl eq_refl).
    apply not_linked_alone in H; [lia|]. intros x [Hx Ex] (_ & _ & F). destruct (PX x Hx) as [->|[->|[->| ->]]]; vm_compute in Ex; try discriminate; auto.
    exfalso. vm_compute in F. intuition discriminate.
Qed.
