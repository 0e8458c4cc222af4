(** * EulerTop: proofs of C152 *)

From Coq Require Import ZArith List Bool Lia.
From Verif Require Import Base BaseLemmas DerivedCluster SpecEnsemble SpecLabellerOne KernelProofs ClusterAbs ClusterRefine ClusterMain ClusterTop ClusterMore ClusterGeom TileMore CirclesLaws LabellerOne SpecEuler SpecCluster Cluster.
Import ListNotations.
Open Scope Z_scope.

Definition singles (l : list Z) : list op := map (fun p => AddPoints [p]) l.

Lemma added_app : forall a b p, added (a ++ [AddPoints b]) p <-> added a p \/ In p b.
Proof. intros. unfold added. rewrite fold_left_app. cbn [fold_left added_by]. tauto. Qed.

Lemma added_singles : forall l p, added (singles l) p <-> In p l.
Proof.
  intros l p. induction l as [|x l IH] using rev_ind; [cbn; tauto|].
  unfold singles in *. rewrite map_app. cbn [map]. rewrite added_app, IH, in_app_iff. cbn [In]. tauto.
Qed.

Lemma singles_points : forall l, flat_map points_of (singles l) = l.
Proof. induction l as [|x l IH]; [reflexivity|]. unfold singles in *. cbn [map flat_map points_of app]. rewrite IH. reflexivity. Qed.

Lemma filter_both : forall A (P : A -> bool) l, length l = (length (filter P l) + length (filter (fun x => negb (P x)) l))%nat.
Proof. intros A P l. induction l as [|x l IH]; [reflexivity|]. cbn [filter]. destruct (P x); cbn [negb length]; lia. Qed.

Lemma zprod_all_pos : forall shape p, good_shape shape -> pixel shape p -> Forall (fun n => 0 < n) shape.
Proof.
  intros shape p (_ & F & _) Hp. apply zprod_some; [exact F|]. unfold pixel in Hp. lia.
Qed.

Section Euler.
Variables (asrt : bool) (g : cfg) (adj : Z -> Z -> Prop).
Let shape := g_shape g.
Hypothesis W : wf g.
Hypothesis Adj : forall p q, pixel shape p -> pixel shape q -> q <> p -> (In q (nb g p) <-> adj p q).
Hypothesis Sym : forall p q, pixel shape p -> pixel shape q -> adj p q -> adj q p.

Lemma legal_singles : forall l, (forall p, In p l -> pixel shape p) -> Forall (legal shape) (singles l).
Proof.
  intros l H. apply Forall_forall. intros o Ho. unfold singles in Ho. apply in_map_iff in Ho. destruct Ho as (p & <- & Hp).
  cbn [legal]. intros q [->|[]]. auto.
Qed.

Lemma euler_run : forall l, NoDup l -> (forall p, In p l -> pixel shape p) ->
  exists s outs, run asrt g (singles l) = Ok (s, outs) /\ lenZ (c_label s) = zprod shape /\
    (forall q, pixel shape q -> (zn (c_label s) q <> 0 <-> In q l)) /\
    forall B, pairs_once adj (fun x => In x l) B -> (length l <= nclusters (c_label s) + length B)%nat.
Proof.
  intros l. induction l as [|p l IH] using rev_ind; intros ND HP.
  - destruct (run_support asrt g (singles []) W) as (s & outs & R & Len & Sup); [constructor|].
    exists s, outs. split; [exact R|]. split; [exact Len|]. split; [|intros; cbn; lia].
    intros q Hq. rewrite (Sup q Hq), added_singles. tauto.
  - assert (ND' := NoDup_remove_1 _ _ _ ND). assert (Np := NoDup_remove_2 _ _ _ ND). rewrite app_nil_r in ND', Np.
    assert (HP' : forall q, In q l -> pixel shape q) by (intros; apply HP; apply in_or_app; auto).
    assert (Pp : pixel shape p) by (apply HP; apply in_or_app; right; left; reflexivity).
    destruct (IH ND' HP') as (s & outs & R & Len & Sup & EU).
    destruct (run_one asrt g (singles l) p (adj p) W (legal_singles l HP') Pp) as (s1 & s' & outs1 & outs' & R1 & R' & One); [intros q Hq Nq; apply Adj; auto|].
    assert (s1 = s) by congruence. subst s1.
    assert (LG : Forall (legal (g_shape g)) (singles (l ++ [p]))) by (apply legal_singles; exact HP).
    destruct (run_support asrt g (singles (l ++ [p])) W LG) as (s2 & outs2 & R2 & Len2 & Sup2).
    assert (EQ : singles (l ++ [p]) = singles l ++ [AddPoints [p]]) by (unfold singles; rewrite map_app; reflexivity).
    rewrite EQ in R2. assert (s2 = s') by congruence. subst s2.
    exists s', outs'. split; [rewrite EQ; exact R'|]. split; [exact Len2|]. split.
    { intros q Hq. rewrite (Sup2 q Hq), added_singles. tauto. }
    intros B [NB HB]. destruct One as (_ & _ & _ & _ & Count).
    assert (Z0 : zn (c_label s) p = 0).
    { destruct (Z.eq_dec (zn (c_label s) p) 0) as [|N]; [assumption|]. exfalso. apply Np. apply (Sup p Pp). exact N. }
    set (at_p := fun xy : Z * Z => (fst xy =? p) || (snd xy =? p)).
    set (other := fun xy : Z * Z => if fst xy =? p then snd xy else fst xy).
    set (B2 := filter at_p B). set (B1 := filter (fun xy => negb (at_p xy)) B).
    assert (SP := filter_both _ at_p B). fold B1 B2 in SP.
    assert (E1B : pairs_once adj (fun x => In x l) B1).
    { split; [apply NoDup_filter; exact NB|]. intros x y. unfold B1. rewrite filter_In, HB. unfold at_p. cbn [fst snd].
      rewrite negb_true_iff, orb_false_iff, !Z.eqb_neq, !in_app_iff. cbn [In]. split.
      - intros [(A & [B'|[->|[]]] & [C|[->|[]]] & D) [N1 N2]]; try congruence. auto.
      - intros (A & B' & C & D). split; [auto 6|]. split; intros ->; contradiction. }
    specialize (EU B1 E1B).
    set (K := nodup Z.eq_dec (map (fun xy => zn (c_label s) (other xy)) B2)).
    assert (HK : forall v, In v K <-> touching (adj p) shape (c_label s) v).
    { intro v. unfold K. rewrite nodup_In, in_map_iff. split.
      - intros ([x y] & Ev & Hxy). unfold B2 in Hxy. apply filter_In in Hxy. destruct Hxy as [Hxy Hat].
        apply HB in Hxy. destruct Hxy as (LT & Ix & Iy & F). unfold at_p, other in *. cbn [fst snd] in *.
        apply in_app_iff in Ix. apply in_app_iff in Iy. cbn [In] in Ix, Iy.
        destruct (Z.eqb_spec x p) as [->|Nx].
        + assert (Il : In y l) by (destruct Iy as [|[<-|[]]]; [assumption|lia]).
          split; [rewrite <- Ev; apply (Sup y (HP' y Il)); exact Il|]. exists y. split; [apply HP'; exact Il|]. split; [exact F|exact Ev].
        + cbn [orb] in Hat. apply Z.eqb_eq in Hat. subst y.
          assert (Il : In x l) by (destruct Ix as [|[<-|[]]]; [assumption|lia]).
          split; [rewrite <- Ev; apply (Sup x (HP' x Il)); exact Il|]. exists x. split; [apply HP'; exact Il|].
          split; [apply Sym; auto|exact Ev].
      - intros [Nv (q & Hq & F & Ev)]. assert (Il : In q l) by (apply (Sup q Hq); congruence).
        assert (Nq : q <> p) by (intros ->; contradiction).
        destruct (Z_lt_le_dec p q) as [LT|GE].
        + exists (p, q). unfold other. cbn [fst snd]. rewrite Z.eqb_refl. split; [exact Ev|].
          unfold B2. apply filter_In. split; [|unfold at_p; cbn [fst snd]; rewrite Z.eqb_refl; reflexivity].
          apply HB. rewrite !in_app_iff. cbn [In]. auto 7.
        + exists (q, p). unfold other. cbn [fst snd]. destruct (Z.eqb_spec q p); [contradiction|]. split; [exact Ev|].
          unfold B2. apply filter_In. split; [|unfold at_p; cbn [fst snd]; rewrite Z.eqb_refl; apply orb_true_r].
          apply HB. rewrite !in_app_iff. cbn [In]. split; [lia|]. split; [auto|]. split; [auto|]. apply Sym; auto. }
    specialize (Count Z0 K (NoDup_nodup _ _) HK).
    assert (LK : (length K <= length B2)%nat).
    { unfold K. rewrite <- (map_length (fun xy => zn (c_label s) (other xy)) B2). apply NoDup_incl_length; [apply NoDup_nodup|].
      intros v Hv. apply nodup_In in Hv. exact Hv. }
    rewrite app_length. cbn [length]. lia.
Qed.

Lemma euler_image : forall img, lenZ img = zprod shape ->
  exists s outs s' N, run asrt g [AddImage shape img] = Ok (s, outs) /\ prune s = Ok s' /\ (forall v, 1 <= v <= N <-> v <> 0 /\ In v (c_label s')) /\
    N <= foreground shape img /\ forall B, pairs_once adj (fun x => pixel shape x /\ zn img x <> 0) B -> foreground shape img - lenZ B <= N.
Proof.
  intros img Hlen. set (l := filter (fun p => negb (zn img p =? 0)) (pixels shape)).
  assert (NDl : NoDup l) by (apply NoDup_filter; apply zrange_NoDup).
  assert (Inl : forall p, In p l <-> pixel shape p /\ zn img p <> 0).
  { intro p. unfold l. rewrite filter_In, negb_true_iff, Z.eqb_neq. unfold pixels. rewrite zrange_In. unfold pixel. tauto. }
  destruct (euler_run l NDl (fun p Hp => proj1 (proj1 (Inl p) Hp))) as (s & outs & R & Len & Sup & EU).
  assert (L1 : Forall (legal (g_shape g)) [AddImage shape img]) by (constructor; [split; auto|constructor]).
  assert (L2 : Forall (legal (g_shape g)) (singles l)) by (apply legal_singles; intros p Hp; apply Inl; exact Hp).
  assert (FP : flat_map points_of [AddImage shape img] = flat_map points_of (singles l)).
  { cbn [flat_map points_of]. rewrite app_nil_r. transitivity l.
    - unfold l, pixels. rewrite <- Hlen. f_equal. unfold zrange, lenZ. rewrite Z.sub_0_r, Nat2Z.id. symmetry. apply (zseq_seq (length img) 0). lia.
    - symmetry. apply singles_points. }
  destruct (batches asrt asrt g [] [AddImage shape img] (singles l) (init g) [] W (Forall_nil _) eq_refl L1 L2) as (s1 & s2 & o1 & o2 & R1 & R2 & EL).
  { constructor; [exact I|constructor]. }
  { apply Forall_forall. intros o Ho. unfold singles in Ho. apply in_map_iff in Ho. destruct Ho as (p & <- & _). exact I. }
  { exact FP. }
  change (run asrt g [AddImage shape img] = Ok (s1, o1)) in R1.
  change (run asrt g (singles l) = Ok (s2, o2)) in R2. assert (s2 = s) by congruence. subst s2.
  destruct (run_prune asrt g [AddImage shape img] s1 o1 W L1 R1) as (s' & P & Len' & _ & _ & On & _).
  exists s1, o1, s', (Z.of_nat (nclusters (c_label s))). split; [exact R1|]. split; [exact P|].
  assert (LS : lenZ (c_label s') = zprod shape) by (rewrite Len', EL; exact Len).
  split; [|split].
  - intro v. rewrite <- EL. rewrite (On v). fold shape. split; intros [Nv H]; (split; [exact Nv|]).
    + destruct H as (p & Hp & <-). unfold zn. apply nth_In. unfold pixel, lenZ in *. lia.
    + apply (In_nth _ _ 0) in H. destruct H as (k & Hk & Ek). exists (Z.of_nat k). split; [unfold pixel, lenZ in *; lia|].
      unfold zn. rewrite Nat2Z.id. exact Ek.
  - unfold foreground. fold l. unfold lenZ. apply inj_le. rewrite <- (map_length (zn (c_label s)) l). apply used_le.
    intros v Hv Nv. apply (In_nth _ _ 0) in Hv. destruct Hv as (k & Hk & Ek). apply in_map_iff. exists (Z.of_nat k).
    assert (Ez : zn (c_label s) (Z.of_nat k) = v) by (unfold zn; rewrite Nat2Z.id; exact Ek).
    split; [exact Ez|]. apply Sup; [unfold pixel, lenZ in *; lia|congruence].
  - intros B [NB HB]. assert (HB' : pairs_once adj (fun x => In x l) B).
    { split; [exact NB|]. intros x y. rewrite HB, !Inl. tauto. }
    specialize (EU B HB'). unfold foreground. fold l. unfold lenZ. lia.
Qed.
End Euler.

Theorem euler_clusters : forall asrt per shape, good_shape shape -> (length shape <= 3)%nat -> forall img, lenZ img = zprod shape ->
  exists lab N, clusters asrt shape img per = Ok lab /\ (forall v, 1 <= v <= N <-> v <> 0 /\ In v lab) /\
    N <= foreground shape img /\ forall B, edges per shape (fun x => pixel shape x /\ zn img x <> 0) B -> foreground shape img - lenZ B <= N.
Proof.
  intros asrt per shape HS HL img Hlen. destruct (make_default_ok shape per HS HL) as (g & E & W & Es & _). subst shape.
  destruct (euler_image asrt g (face_neighbour per (g_shape g)) W) with (img := img) as (s & outs & s' & N & R & P & H); auto.
  - intros p q Hp Hq Nq. apply default_nb; auto.
  - intros p q Hp Hq F. apply face_neighbour_back; [exact (zprod_all_pos _ p HS Hp)|exact F].
  - exists (c_label s'), N. split; [|exact H]. unfold clusters. rewrite E, bind_Ok. unfold run in R. cbn [run_from step] in R.
    destruct (add_image asrt g (init g) (g_shape g) img) as [t| | |] eqn:EA; cbn [bind] in R; try discriminate.
    inversion R; subst t. rewrite bind_Ok, P, bind_Ok. reflexivity.
Qed.

Theorem euler_labeller : forall asrt shape per ks kv, good_shape shape -> good_kernel shape ks kv -> kernel_symmetric ks kv -> offsets_in_range per shape (set_offset ks kv) ->
  forall img, lenZ img = zprod shape ->
  exists g s outs N, make_kernel asrt shape per ks kv = Ok g /\ run asrt g [AddImage shape img; Prune] = Ok (s, outs) /\
    (forall v, 1 <= v <= N <-> v <> 0 /\ In v (c_label s)) /\
    N <= foreground shape img /\
    forall B, pairs_once (kernel_neighbour per shape ks kv) (fun x => pixel shape x /\ zn img x <> 0) B -> foreground shape img - lenZ B <= N.
Proof.
  intros asrt shape per ks kv HS HK SY HR img Hlen. destruct (make_kernel_ok asrt shape per ks kv HS HK) as (g & E & W & Es & _). subst shape.
  destruct (euler_image asrt g (kernel_neighbour per (g_shape g) ks kv) W) with (img := img) as (s & outs & s' & N & R & P & H); auto.
  - intros p q Hp Hq Nq. apply (kernel_nb asrt); auto.
  - intros p q Hp Hq (_ & _ & d & Hd & M). split; [exact Hq|]. split; [exact Hp|]. exists (map Z.opp d). split; [apply SY; exact Hd|].
    assert (POS := zprod_all_pos _ p HS Hp). apply moved_sym; auto using coords_inside.
  - exists g, s'. unfold run in *. cbn [run_from step] in *.
    destruct (add_image asrt g (init g) (g_shape g) img) as [t| | |] eqn:EA; cbn [bind] in R |- *; try discriminate.
    inversion R; subst t outs. rewrite P. cbn [bind]. do 2 eexists. split; [exact E|]. split; [reflexivity|]. exact H.
Qed.
