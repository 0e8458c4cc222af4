(** * ClusterTop: [clusters], assertions, observing the neighbourhood (proofs only). *)

From Coq Require Import ZArith List Bool Lia Sorted.
From Verif Require Import Base BaseLemmas Cluster Kernel ClusterInv ClusterRefine ClusterGeom
  ClusterAbs ClusterRun ClusterMain KernelProofs SpecCluster.
Import ListNotations.
Open Scope Z_scope.

(** ** clusters *)

Lemma clusters_ok : forall asrt shape img per, good_shape shape -> (length shape <= 3)%nat ->
  lenZ img = zprod shape ->
  exists lab, clusters asrt shape img per = Ok lab /\ lenZ lab = zprod shape /\
    (forall p, pixel shape p -> (zn lab p = 0 <-> zn img p = 0)) /\
    (forall p q, pixel shape p -> pixel shape q -> zn img p <> 0 -> zn img q <> 0 ->
       (zn lab p = zn lab q <->
        linked (face_neighbour per shape) (fun x => pixel shape x /\ zn img x <> 0) p q)) /\
    (exists n, forall v, 1 <= v <= n <-> v <> 0 /\ exists p, pixel shape p /\ zn lab p = v) /\
    (forall p, pixel shape p -> 0 <= zn lab p) /\
    (forall p q f h, pixel shape p -> pixel shape q -> zn lab p <> 0 -> zn lab q <> 0 ->
       first_of shape lab f p -> first_of shape lab h q -> (zn lab p < zn lab q <-> f < h)).
Proof.
  intros asrt shape img per HS HR Hlen.
  destruct (make_default_ok shape per HS HR) as (g & E & Hwf & Es & Ep & Hsym & Hin & Hnb).
  unfold clusters. rewrite E, bind_Ok. rewrite <- Es in *.
  pose proof (Q_init g Hwf) as HQ0. pose proof (wf_nb_ok g Hwf) as Hok.
  destruct (add_image_ok asrt g (init g) img Hwf HQ0 Hlen) as (s & E1 & HQ & R).
  rewrite E1, bind_Ok. clear E1.
  destruct (prune_spec g s Hwf HQ) as (s' & E2 & L2 & Z2 & O2 & V2 & _).
  rewrite E2, bind_Ok. exists (c_label s'). split; auto.
  pose proof (Q_AI _ _ HQ0) as HA0. pose proof (Q_AI _ _ HQ) as HA.
  assert (Hlab : c_label s = fst (apoints g (image_points img) (c_label (init g), c_new (init g))))
    by (rewrite <- R; auto).
  assert (Hpts : forall p, In p (image_points img) -> 0 <= p < zprod (g_shape g)).
  { intros p Hp. apply image_points_In in Hp. lia. }
  assert (Hsup : forall p, pixel (g_shape g) p -> (zn (c_label s) p <> 0 <-> zn img p <> 0)).
  { intros p Hp. rewrite Hlab, support_steps by auto. cbn [fst]. rewrite init_zero, image_points_In.
    unfold pixel in Hp. rewrite Hlen. tauto. }
  assert (Hz : forall p, pixel (g_shape g) p -> (zn (c_label s') p = 0 <-> zn img p = 0)).
  { intros p Hp. rewrite (Z2 p Hp). specialize (Hsup p Hp). destruct (Z.eq_dec (zn img p) 0), (Z.eq_dec (zn (c_label s) p) 0); tauto. }
  assert (Heq : forall p q, pixel (g_shape g) p -> pixel (g_shape g) q ->
     (zn (c_label s') p = zn (c_label s') q <-> zn (c_label s) p = zn (c_label s) q)).
  { intros p q Hp Hq. pose proof (O2 p q Hp Hq). pose proof (O2 q p Hq Hp). lia. }
  split; [rewrite L2, (iv_len _ _ (proj1 HQ)); auto|].
  split; [auto|].
  split.
  { intros p q Hp Hq Ip Iq. rewrite Heq by auto.
    assert (HN : 0 < zprod (g_shape g)) by (unfold pixel in Hp; lia).
    specialize (Hin HN). pose proof (sym_nb_sym g Hwf Hin Hsym) as Hns.
    assert (HP : PI g (c_label s)).
    { rewrite Hlab. apply PI_steps; auto. cbn [fst]. apply PI_zero. apply init_zero. }
    assert (HL : forall x, lab_of g (c_label s) x <-> pixel (g_shape g) x /\ zn img x <> 0).
    { intros x. unfold lab_of. split; intros [A1 A2]; split; auto; apply (Hsup x A1); auto. }
    rewrite (PI_iff g (c_label s) p q HP) by (apply HL; auto).
    rewrite (linked_adj g (c_label s) (fun x => zn img x <> 0) p q Hwf Hin HL).
    split; apply linked_mono; auto; intros x y _ _; apply Hnb. }
  split; [eauto|].
  assert (Hpos : forall p, pixel (g_shape g) p -> 0 <= zn (c_label s') p).
  { intros p Hp. destruct (prune_ok _ _ HQ) as (s1 & F & HQ1 & _).
    assert (s1 = s') by congruence. subst s1. pose proof (ai_rng _ _ (Q_AI _ _ HQ1) p Hp). cbn [fst] in *. lia. }
  split; [auto|].
  intros p q f h Hp Hq Np Nq (Hf & Ef & Mf) (Hh & Eh & Mh).
  change (zn (c_label s') f = zn (c_label s') p) in Ef.
  change (zn (c_label s') h = zn (c_label s') q) in Eh.
  assert (HSc : Scan (zprod (g_shape g)) (c_label s)).
  { rewrite Hlab. apply Scan_steps; auto using image_points_sorted.
    - intros x y _ _ Hn. cbn [fst] in Hn. rewrite init_zero in Hn. lia.
    - intros x y _ _ Hn. cbn [fst] in Hn. rewrite init_zero in Hn. lia. }
  assert (HSC : forall x y, pixel (g_shape g) x -> pixel (g_shape g) y -> zn (c_label s') x <> 0 ->
     zn (c_label s') x < zn (c_label s') y ->
     exists x', pixel (g_shape g) x' /\ zn (c_label s') x' = zn (c_label s') x /\ x' < y).
  { intros x y Hx Hy Hn Hlt. rewrite (Z2 x Hx) in Hn. apply O2 in Hlt; auto.
    destruct (HSc x y Hx Hy Hn Hlt) as (x' & A1 & A2 & A3). exists x'. split; auto. split; auto.
    apply Heq; auto. }
  split; intros H.
  - destruct (HSC p h Hp Hh Np ltac:(lia)) as (x' & A1 & A2 & A3).
    pose proof (Mf x' A1 A2). lia.
  - destruct (Z.lt_trichotomy (zn (c_label s') p) (zn (c_label s') q)) as [L|[L|L]]; auto.
    + exfalso. pose proof (Mh f Hf (eq_trans Ef L)). lia.
    + destruct (HSC q f Hq Hf Nq ltac:(lia)) as (x' & A1 & A2 & A3).
      pose proof (Mh x' A1 A2). lia.
Qed.

(** Zero set, partition, contiguity and order of first pixels leave no freedom. *)
Lemma exists_first : forall shape lab p, pixel shape p -> exists f, first_of shape lab f p.
Proof.
  intros shape lab p Hp.
  assert (G : forall k, (k <= Z.to_nat p)%nat ->
     (exists f, first_of shape lab f p) \/ (forall q, 0 <= q < Z.of_nat k -> zn lab q <> zn lab p)).
  { induction k as [|k IH]; intros Hk; [right; lia|].
    destruct IH as [IH|IH]; [lia|auto|].
    destruct (Z.eq_dec (zn lab (Z.of_nat k)) (zn lab p)) as [E|E].
    - left. exists (Z.of_nat k). unfold pixel in *. split; [unfold pixel; lia|]. split; auto.
      intros q Hq Eq. destruct (Z_lt_le_dec q (Z.of_nat k)); auto. exfalso. unfold pixel in Hq.
      apply (IH q); auto. lia.
    - right. intros q Hq. destruct (Z.eq_dec q (Z.of_nat k)); [subst; auto|]. apply IH. lia. }
  destruct (G (Z.to_nat p) ltac:(lia)) as [H|H]; auto.
  exists p. split; auto. split; auto. intros q Hq Eq. unfold pixel in *.
  destruct (Z_lt_le_dec q p); auto. exfalso. apply (H q); auto. lia.
Qed.

Definition canonical (shape lab : list Z) : Prop :=
  (forall p, pixel shape p -> 0 <= zn lab p) /\
  (exists n, forall v, 1 <= v <= n <-> v <> 0 /\ exists p, pixel shape p /\ zn lab p = v) /\
  (forall p q f h, pixel shape p -> pixel shape q -> zn lab p <> 0 -> zn lab q <> 0 ->
       first_of shape lab f p -> first_of shape lab h q -> (zn lab p < zn lab q <-> f < h)).

Lemma canonical_unique : forall shape a b, canonical shape a -> canonical shape b ->
  (forall p, pixel shape p -> (zn a p = 0 <-> zn b p = 0)) ->
  (forall p q, pixel shape p -> pixel shape q -> (zn a p = zn a q <-> zn b p = zn b q)) ->
  forall p, pixel shape p -> zn a p = zn b p.
Proof.
  intros shape a b (Pa & (na & Va) & Fa) (Pb & (nb & Vb) & Fb) Hz He.
  assert (HF : forall f p, first_of shape a f p -> pixel shape p -> first_of shape b f p).
  { intros f p (H1 & H2 & H3) Hp. split; auto. split; [apply He; auto|].
    intros q Hq Eq. apply H3; auto. apply He; auto. }
  assert (HO : forall p q, pixel shape p -> pixel shape q -> zn a p <> 0 -> zn a q <> 0 ->
     (zn a p < zn a q <-> zn b p < zn b q)).
  { intros p q Hp Hq Np Nq. destruct (exists_first shape a p Hp) as (f & Hf).
    destruct (exists_first shape a q Hq) as (h & Hh).
    rewrite (Fa p q f h) by auto. rewrite (Fb p q f h); auto; try tauto;
    rewrite <- (Hz _) by auto; auto. }
  assert (G : forall k v, 0 <= v < Z.of_nat k -> forall p, pixel shape p -> zn a p = v -> zn b p = v).
  { induction k as [|k IH]; intros v Hv p Hp E; [lia|].
    destruct (Z.eq_dec v 0) as [->|Hv0]; [apply Hz; auto|].
    assert (Hnb : zn b p <> 0) by (rewrite <- (Hz p Hp); lia).
    pose proof (Pb p Hp) as Pp.
    destruct (Z.lt_trichotomy (zn b p) v) as [L|[L|L]]; auto; exfalso.
    - assert (Hw : 1 <= zn b p <= na).
      { assert (1 <= v <= na) by (apply Va; split; auto; exists p; auto). lia. }
      apply Va in Hw. destruct Hw as (_ & q & Hq & Eq).
      pose proof (IH (zn b p) ltac:(lia) q Hq Eq) as X.
      assert (zn a q = zn a p) by (apply He; auto). lia.
    - assert (Hw : 1 <= v <= nb).
      { assert (1 <= zn b p <= nb) by (apply Vb; split; auto; exists p; auto). lia. }
      apply Vb in Hw. destruct Hw as (_ & r & Hr & Er).
      assert (zn a r <> 0) by (rewrite (Hz r Hr); lia).
      assert (zn a r < zn a p) by (apply HO; auto; lia).
      pose proof (Pa r Hr).
      pose proof (IH (zn a r) ltac:(lia) r Hr eq_refl). lia. }
  intros p Hp. symmetry. apply (G (Z.to_nat (zn a p) + 1)%nat (zn a p)); auto.
  pose proof (Pa p Hp). lia.
Qed.

(** ** Assertions turn every illegal call into an exception *)

Lemma step_asserted : forall g s o, wf g -> Q (zprod (g_shape g)) s -> representable o ->
  (legal (g_shape g) o /\ exists s' out, step true g s o = Ok (s', out) /\ Q (zprod (g_shape g)) s') \/
  (~ legal (g_shape g) o /\ step true g s o = Throw).
Proof.
  intros g s o Hwf HQ Ht.
  assert (G : legal (g_shape g) o -> exists s' out, step true g s o = Ok (s', out) /\ Q (zprod (g_shape g)) s').
  { intros Hl. destruct (step_ok true g s o (fun p => zn (c_label s) p <> 0) Hwf HQ) as (s' & out & E & HP & _); auto.
    - intros p _. tauto.
    - eauto. }
  pose proof (zprod_big g Hwf) as HB.
  destruct o as [sh img|l|l| |]; try (left; split; [exact I|]; apply G; exact I).
  - destruct (eqbl sh (g_shape g)) eqn:E.
    + apply eqbl_eq in E. left. cbn [representable] in Ht.
      assert (legal (g_shape g) (AddImage sh img)) by (split; auto; subst; auto). auto.
    + right. split.
      * intros [-> _]. rewrite eqbl_refl in E. discriminate.
      * cbn [step]. unfold add_image. rewrite E. reflexivity.
  - destruct (legal_points s l) eqn:E.
    + left. assert (legal (g_shape g) (AddPoints l)).
      { intros p Hp. apply (legal_points_inv _ s l (proj1 HQ) HB E p Hp). apply Ht; auto. }
      auto.
    + right. split.
      * intros H. cbn [legal] in H. rewrite (legal_points_true _ _ _ (proj1 HQ) HB H) in E. discriminate.
      * cbn [step]. unfold add_points. rewrite E. reflexivity.
  - destruct l as [|x l'].
    { right. split; [intros [H _]; congruence|]. reflexivity. }
    destruct (legal_points s (x :: l')) eqn:E.
    + left. assert (legal (g_shape g) (AddSequence (x :: l'))).
      { split; [discriminate|]. intros p Hp. apply (legal_points_inv _ s _ (proj1 HQ) HB E p Hp). apply Ht; auto. }
      auto.
    + right. split.
      * intros [_ H]. rewrite (legal_points_true _ _ _ (proj1 HQ) HB H) in E. discriminate.
      * cbn [step]. unfold add_sequence. rewrite E.
        replace (1 <=? lenZ (x :: l')) with true; [reflexivity|].
        rewrite lenZ_cons. pose proof (lenZ_nonneg _ l'). lia.
Qed.

Lemma run_asserted : forall g ops, wf g -> Forall representable ops ->
  (exists r, run true g ops = Ok r) \/ (run true g ops = Throw /\ ~ Forall (legal (g_shape g)) ops).
Proof.
  intros g ops Hwf Ht. unfold run. pose proof (Q_init g Hwf) as HQ. revert HQ. generalize (init g).
  induction Ht as [|o ops Ho Ht IH]; intros s HQ.
  - left. simpl. eauto.
  - cbn [run_from]. destruct (step_asserted g s o Hwf HQ Ho) as [(_ & s' & out & E & HQ')|[Hn E]]; rewrite E.
    + rewrite bind_Ok. destruct (IH s' HQ') as [[[s2 outs] E2]|[E2 H2]]; rewrite E2.
      * left. simpl. eauto.
      * right. split; auto. intros H. inversion H; auto.
    + right. split; auto. intros H. inversion H; auto.
Qed.

(** ** Observing the neighbourhood *)

Lemma two_points : forall asrt g p q, wf g -> pixel (g_shape g) p -> pixel (g_shape g) q -> p <> q ->
  exists s outs, run asrt g [AddPoints [q; p]] = Ok (s, outs) /\
    (zn (c_label s) p = zn (c_label s) q <-> In q (nb g p)).
Proof.
  intros asrt g p q Hwf Hp Hq Hpq. pose proof (wf_nb_ok g Hwf) as Hok. pose proof (Q_init g Hwf) as HQ.
  destruct (add_points_ok asrt g (init g) [q; p] Hwf HQ) as (s & E & HQ' & R).
  { intros x [<-|[<-|[]]]; auto. }
  exists s, [[]]. unfold run. cbn [run_from step]. rewrite E, !bind_Ok. split; auto.
  pose proof (Q_AI _ _ HQ) as HA0. set (a0 := (c_label (init g), c_new (init g))) in *.
  cbn [apoints fold_left] in R.
  pose proof (ai_step g a0 q Hok HA0 Hq) as HA1. set (a1 := apoint g a0 q) in *.
  assert (Z0 : forall x, zn (fst a0) x = 0) by (intros; apply init_zero).
  assert (N0 : near (nb g q) (fst a0) = []).
  { destruct (near (nb g q) (fst a0)) as [|r t] eqn:EN; auto. exfalso.
    assert (In r (near (nb g q) (fst a0))) by (rewrite EN; simpl; auto).
    apply near_In in H. destruct H as (Hr & c & _ & Ec). rewrite Z0 in Ec. lia. }
  assert (S0 : snd a0 = 1) by reflexivity.
  assert (L0 : lenZ (fst a0) = zprod (g_shape g)) by apply (ai_len _ _ HA0).
  assert (Z1 : forall x, pixel (g_shape g) x -> zn (fst a1) x = if q =? x then 1 else 0).
  { intros x Hx. unfold a1, apoint. rewrite Z0. cbn [Z.eqb fst snd].
    unfold pixel in *. rewrite <- L0 in *.
    destruct (a_rep_zn (nb g q) (fst a0) (snd a0) q x Hq Hx) as [[_ X]|[X _]]; [|congruence].
    rewrite X, S0, Z0. auto. }
  assert (NB : forall c, In c (nb g p) -> pixel (g_shape g) c) by (intros c Hc; apply (nb_range g p c Hok Hp Hc)).
  assert (NR : forall r, In r (near (nb g p) (fst a1)) <-> r = 1 /\ In q (nb g p)).
  { intros r. rewrite near_In. split.
    - intros (Hr & c & Hc & Ec). rewrite Z1 in Ec by auto. destruct (q =? c) eqn:X; [|lia].
      assert (q = c) by lia. subst c. split; auto.
    - intros (-> & H). split; [lia|]. exists q. split; auto. rewrite Z1, Z.eqb_refl by auto. auto. }
  assert (S1 : snd a1 = 2).
  { unfold a1, apoint. rewrite Z0. cbn [Z.eqb snd]. unfold a_new. rewrite N0, S0. auto. }
  assert (RL : c_label s = a_rep (nb g p) (fst a1) (snd a1) p).
  { apply (f_equal fst) in R. cbn [fst] in R. rewrite R. unfold apoint. rewrite Z1 by auto.
    replace (q =? p) with false by lia. auto. }
  rewrite RL. pose proof (ai_len _ _ HA1) as L1. unfold pixel in Hp, Hq. rewrite <- L1 in Hp, Hq.
  destruct (a_rep_zn (nb g p) (fst a1) (snd a1) p p Hp Hp) as [[X1 X2]|[X1 X2]];
  destruct (a_rep_zn (nb g p) (fst a1) (snd a1) p q Hp Hq) as [[Y1 Y2]|[Y1 Y2]]; try congruence; rewrite X2, Y2.
  - rewrite Z.eqb_refl. replace (p =? q) with false by lia. rewrite Z1, Z.eqb_refl, S1 by (unfold pixel; lia).
    split; [lia|]. intros H. exfalso. assert (In 1 (near (nb g p) (fst a1))) by (apply NR; auto).
    rewrite X1 in H0. auto.
  - rewrite Z.eqb_refl. replace (p =? q) with false by lia. rewrite Z1, Z.eqb_refl by (unfold pixel; lia).
    assert (In q (nb g p)).
    { destruct (near (nb g p) (fst a1)) as [|r t] eqn:EN; [congruence|].
      apply (NR r). simpl; auto. }
    replace (existsb (Z.eqb 1) (near (nb g p) (fst a1))) with true; [tauto|].
    symmetry. apply existsb_eqb. apply NR. auto.
Qed.

(** ** Corollaries in the form of the property list *)

Lemma run_support : forall asrt g ops, wf g -> Forall (legal (g_shape g)) ops ->
  exists s outs, run asrt g ops = Ok (s, outs) /\ lenZ (c_label s) = zprod (g_shape g) /\
    forall p, pixel (g_shape g) p -> (zn (c_label s) p <> 0 <-> added ops p).
Proof.
  intros asrt g ops Hwf Hl. destruct (run_ok asrt g ops Hwf Hl) as (s & outs & E & HQ & HS & _).
  exists s, outs. split; auto. split; [apply (iv_len _ _ (proj1 HQ))|]. auto.
Qed.

Lemma run_partition_default : forall asrt shape per ops, good_shape shape -> (length shape <= 3)%nat ->
  Forall (legal shape) ops ->
  exists g s outs, make_default shape per = Ok g /\ run asrt g ops = Ok (s, outs) /\
  forall p q, pixel shape p -> pixel shape q -> added ops p -> added ops q ->
   (zn (c_label s) p = zn (c_label s) q <->
    linked (face_neighbour per shape) (fun x => pixel shape x /\ added ops x) p q).
Proof.
  intros asrt shape per ops HS HR Hl.
  destruct (make_default_ok shape per HS HR) as (g & E & Hwf & Es & Ep & Hsym & Hin & Hnb).
  rewrite <- Es in *.
  destruct (Z_lt_le_dec 0 (zprod (g_shape g))) as [HN|HN].
  - destruct (run_partition asrt g ops Hwf (Hin HN) Hsym Hl) as (s & outs & E1 & H).
    exists g, s, outs. split; auto. split; auto. intros p q Hp Hq Ap Aq. rewrite (H p q Hp Hq Ap Aq).
    split; apply linked_mono; auto; intros x y _ _; apply Hnb.
  - destruct (run_ok asrt g ops Hwf Hl) as (s & outs & E1 & _). exists g, s, outs. split; auto. split; auto.
    intros p q Hp. unfold pixel in Hp. lia.
Qed.

Lemma run_partition_kernel : forall asrt shape per ks kv ops, good_shape shape ->
  good_kernel shape ks kv -> kernel_symmetric ks kv -> offsets_in_range per shape (set_offset ks kv) ->
  Forall (legal shape) ops ->
  exists g s outs, make_kernel asrt shape per ks kv = Ok g /\ run asrt g ops = Ok (s, outs) /\
  forall p q, pixel shape p -> pixel shape q -> added ops p -> added ops q ->
   (zn (c_label s) p = zn (c_label s) q <->
    linked (kernel_neighbour per shape ks kv) (fun x => pixel shape x /\ added ops x) p q).
Proof.
  intros asrt shape per ks kv ops HS HK Hsym Hin Hl. pose proof HK as (HL & _).
  destruct (make_kernel_ok asrt shape per ks kv HS HK) as (g & E & Hwf & Es & Ep & HD).
  pose proof (kernel_in_range shape per ks kv g Es Ep HL HD Hin) as Hr.
  pose proof (kernel_sym shape ks kv g HL HD Hsym) as Hs.
  pose proof (kernel_neighbour_dx shape per ks kv g HS Es Ep HD) as Hnb.
  assert (Hl' : Forall (legal (g_shape g)) ops) by (rewrite Es; auto).
  destruct (run_partition asrt g ops Hwf Hr Hs Hl') as (s & outs & E1 & H).
  exists g, s, outs. split; auto. split; auto. rewrite Es in H. intros p q Hp Hq Ap Aq.
  rewrite (H p q Hp Hq Ap Aq). rewrite Es in Hnb.
  split; apply linked_irrefl; intros x y _ _ Hn; apply Hnb; auto.
Qed.

Lemma run_order : forall asrt1 asrt2 g ops1 ops2 s1 s2 o1 o2, wf g -> in_range g -> symmetric g ->
  Forall (legal (g_shape g)) ops1 -> Forall (legal (g_shape g)) ops2 ->
  (forall p, pixel (g_shape g) p -> (added ops1 p <-> added ops2 p)) ->
  run asrt1 g ops1 = Ok (s1, o1) -> run asrt2 g ops2 = Ok (s2, o2) ->
  forall p q, pixel (g_shape g) p -> pixel (g_shape g) q ->
    (zn (c_label s1) p = 0 <-> zn (c_label s2) p = 0) /\
    (zn (c_label s1) p = zn (c_label s1) q <-> zn (c_label s2) p = zn (c_label s2) q).
Proof.
  intros asrt1 asrt2 g ops1 ops2 s1 s2 o1 o2 Hwf Hr Hs L1 L2 HA E1 E2 p q Hp Hq.
  destruct (run_ok asrt1 g ops1 Hwf L1) as (t1 & u1 & F1 & _ & S1 & _ & P1).
  destruct (run_ok asrt2 g ops2 Hwf L2) as (t2 & u2 & F2 & _ & S2 & _ & P2).
  assert (t1 = s1) by congruence. assert (t2 = s2) by congruence. subst t1 t2.
  pose proof (sym_nb_sym g Hwf Hr Hs) as Hn. specialize (P1 Hn). specialize (P2 Hn).
  assert (HZ : forall x, pixel (g_shape g) x -> (zn (c_label s1) x = 0 <-> zn (c_label s2) x = 0)).
  { intros x Hx. specialize (S1 x Hx). specialize (S2 x Hx). specialize (HA x Hx).
    destruct (Z.eq_dec (zn (c_label s1) x) 0), (Z.eq_dec (zn (c_label s2) x) 0); tauto. }
  split; [auto|].
  assert (HL : forall x, lab_of g (c_label s1) x <-> lab_of g (c_label s2) x).
  { intros x. unfold lab_of. split; intros [A B]; split; auto; specialize (HZ x A); tauto. }
  pose proof (HZ p Hp) as Zp. pose proof (HZ q Hq) as Zq.
  destruct (Z.eq_dec (zn (c_label s1) p) 0) as [Np|Np].
  { assert (X : zn (c_label s2) p = 0) by tauto. rewrite Np, X.
    split; intros; symmetry; apply Zq; congruence. }
  destruct (Z.eq_dec (zn (c_label s1) q) 0) as [Nq|Nq].
  { assert (X : zn (c_label s2) q = 0) by tauto. rewrite Nq, X. tauto. }
  rewrite (PI_iff g (c_label s1) p q P1) by (split; auto).
  rewrite (PI_iff g (c_label s2) p q P2) by (apply HL; split; auto).
  split; apply linked_mono; auto; intros x; apply HL.
Qed.

Lemma run_defined : forall asrt g ops, wf g -> Forall (legal (g_shape g)) ops ->
  exists r, run asrt g ops = Ok r.
Proof. intros asrt g ops Hwf Hl. destruct (run_ok asrt g ops Hwf Hl) as (s & o & E & _). eauto. Qed.

Lemma run_add_labels : forall asrt g ops o s out s' out', wf g -> Forall (legal (g_shape g)) ops ->
  legal (g_shape g) o -> is_add o -> run asrt g ops = Ok (s, out) -> step asrt g s o = Ok (s', out') ->
  forall p, pixel (g_shape g) p -> zn (c_label s') p <> 0 ->
    (forall q, pixel (g_shape g) q -> zn (c_label s') q = zn (c_label s') p -> zn (c_label s) q <> 0 ->
       zn (c_label s') p <= zn (c_label s) q /\
       exists q', pixel (g_shape g) q' /\ zn (c_label s') q' = zn (c_label s') p /\
                  zn (c_label s) q' = zn (c_label s') p) /\
    ((forall q, pixel (g_shape g) q -> zn (c_label s') q = zn (c_label s') p -> zn (c_label s) q = 0) ->
       forall q, pixel (g_shape g) q -> zn (c_label s) q <> zn (c_label s') p).
Proof.
  intros. eapply add_labels; eauto. eapply run_Q; eauto.
Qed.

Lemma run_prune : forall asrt g ops s outs, wf g -> Forall (legal (g_shape g)) ops ->
  run asrt g ops = Ok (s, outs) ->
  exists s', prune s = Ok s' /\ lenZ (c_label s') = lenZ (c_label s) /\
    (forall p, pixel (g_shape g) p -> (zn (c_label s') p = 0 <-> zn (c_label s) p = 0)) /\
    (forall p q, pixel (g_shape g) p -> pixel (g_shape g) q ->
       (zn (c_label s') p < zn (c_label s') q <-> zn (c_label s) p < zn (c_label s) q)) /\
    (forall v, 1 <= v <= Z.of_nat (nclusters (c_label s)) <->
       v <> 0 /\ exists p, pixel (g_shape g) p /\ zn (c_label s') p = v) /\
    (exists s'', prune s' = Ok s'' /\ c_label s'' = c_label s').
Proof. intros. apply prune_spec; auto. eapply run_Q; eauto. Qed.

Lemma run_reset : forall asrt g ops s outs ops', wf g -> Forall (legal (g_shape g)) ops ->
  run asrt g ops = Ok (s, outs) -> run_from asrt g (reset s) ops' = run asrt g ops'.
Proof.
  intros asrt g ops s outs ops' Hwf Hl E. rewrite (reset_init g s Hwf (run_Q _ _ _ _ _ Hwf Hl E)).
  reflexivity.
Qed.

Lemma run_sequence : forall asrt g ops s outs l, wf g -> Forall (legal (g_shape g)) ops ->
  run asrt g ops = Ok (s, outs) -> legal (g_shape g) (AddSequence l) ->
  exists s1 s2 ret, add_points asrt g s l = Ok s1 /\ add_sequence asrt g s l = Ok (s2, ret ++ [lenZ l]) /\
    c_label s2 = c_label s1 /\ StronglySorted Z.lt (ret ++ [lenZ l]) /\
    (forall i, In i ret -> 0 <= i < lenZ l) /\
    (forall k t1 t2, (k < length l)%nat -> add_points asrt g s (firstn k l) = Ok t1 ->
        add_points asrt g s (firstn (S k) l) = Ok t2 ->
        nclusters (c_label t2) <> nclusters (c_label t1) -> In (Z.of_nat k) ret).
Proof. intros. apply add_sequence_spec; auto. eapply run_Q; eauto. Qed.

Lemma run_sequence_why : forall asrt g ops s outs l, wf g -> Forall (legal (g_shape g)) ops ->
  run asrt g ops = Ok (s, outs) -> legal (g_shape g) (AddSequence l) ->
  exists s2 ret, add_sequence asrt g s l = Ok (s2, ret ++ [lenZ l]) /\
    forall k t1 t2, (k < length l)%nat -> add_points asrt g s (firstn k l) = Ok t1 ->
      add_points asrt g s (firstn (S k) l) = Ok t2 ->
      (nclusters (c_label t2) <> nclusters (c_label t1) -> In (Z.of_nat k) ret) /\
      (In (Z.of_nat k) ret -> nclusters (c_label t2) <> nclusters (c_label t1) \/ zn (c_label t1) (nth k l 0) <> 0).
Proof. intros. apply add_sequence_why; auto. eapply run_Q; eauto. Qed.

Lemma run_sequence_exact : forall asrt g ops s outs l, wf g -> Forall (legal (g_shape g)) ops ->
  run asrt g ops = Ok (s, outs) -> legal (g_shape g) (AddSequence l) ->
  NoDup l -> (forall p, In p l -> zn (c_label s) p = 0) ->
  exists s2 ret, add_sequence asrt g s l = Ok (s2, ret ++ [lenZ l]) /\
    forall k t1 t2, (k < length l)%nat -> add_points asrt g s (firstn k l) = Ok t1 ->
      add_points asrt g s (firstn (S k) l) = Ok t2 ->
      (In (Z.of_nat k) ret <-> nclusters (c_label t2) <> nclusters (c_label t1)).
Proof. intros. apply add_sequence_exact; auto. eapply run_Q; eauto. Qed.

Lemma default_nearest : forall asrt shape per ks kv, (1 <= length shape <= 2)%nat ->
  nearest asrt (length shape) = Ok (ks, kv) ->
  exists g, make_default shape per = Ok g /\ make_kernel asrt shape per ks kv = Ok g.
Proof.
  intros asrt shape per ks kv HL. destruct shape as [|n0 [|n1 [|n2 t]]]; cbn [length] in *; try lia;
  intros E; destruct asrt; vm_compute in E; injection E as <- <-; eexists; split; reflexivity.
Qed.

Lemma kernel_observed : forall asrt shape per ks kv p q, good_shape shape -> good_kernel shape ks kv ->
  offsets_in_range per shape (set_offset ks kv) -> pixel shape p -> pixel shape q -> p <> q ->
  exists g s outs, make_kernel asrt shape per ks kv = Ok g /\
    run asrt g [AddPoints [q; p]] = Ok (s, outs) /\
    (zn (c_label s) p = zn (c_label s) q <-> kernel_neighbour per shape ks kv p q).
Proof.
  intros asrt shape per ks kv p q HS HK Hin Hp Hq Hpq. pose proof HK as (HL & _).
  destruct (make_kernel_ok asrt shape per ks kv HS HK) as (g & E & Hwf & Es & Ep & HD).
  pose proof (kernel_in_range shape per ks kv g Es Ep HL HD Hin) as Hr.
  destruct (two_points asrt g p q Hwf) as (s & outs & E1 & H); rewrite ?Es; auto.
  exists g, s, outs. split; auto. split; auto. rewrite H.
  rewrite nb_spec by (rewrite ?Es; auto).
  rewrite (kernel_neighbour_dx shape per ks kv g HS Es Ep HD) by auto. tauto.
Qed.

Lemma kernel_defined : forall asrt shape per ks kv ops, good_shape shape -> good_kernel shape ks kv ->
  Forall (legal shape) ops ->
  exists g r, make_kernel asrt shape per ks kv = Ok g /\ run asrt g ops = Ok r.
Proof.
  intros asrt shape per ks kv ops HS HK Hl.
  destruct (make_kernel_ok asrt shape per ks kv HS HK) as (g & E & Hwf & Es & _).
  destruct (run_defined asrt g ops Hwf) as (r & E1); [rewrite Es; auto|]. eauto.
Qed.

Lemma clusters_determined : forall shape a b,
  (forall lab, lab = a \/ lab = b ->
    (forall p, pixel shape p -> 0 <= zn lab p) /\
    (exists n, forall v, 1 <= v <= n <-> v <> 0 /\ exists p, pixel shape p /\ zn lab p = v) /\
    (forall p q f h, pixel shape p -> pixel shape q -> zn lab p <> 0 -> zn lab q <> 0 ->
       first_of shape lab f p -> first_of shape lab h q -> (zn lab p < zn lab q <-> f < h))) ->
  (forall p, pixel shape p -> (zn a p = 0 <-> zn b p = 0)) ->
  (forall p q, pixel shape p -> pixel shape q -> (zn a p = zn a q <-> zn b p = zn b q)) ->
  forall p, pixel shape p -> zn a p = zn b p.
Proof. intros shape a b H. apply canonical_unique; apply H; auto. Qed.
