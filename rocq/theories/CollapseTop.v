(** * CollapseTop: [W2c] with the centers of the labels *)

From Coq Require Import ZArith List Bool Reals QArith Qcanon Lra Lia Permutation.
From Verif Require Import Base BaseLemmas SpecCluster Cluster ClusterGeom ClusterTop Center SpecCenter CenterLabels SpecPath Path Ensemble SpecEnsemble EnsembleSums EnsembleL EnsembleW2c
  Collapse SpecCollapse CollapseProofs.
Import ListNotations.
Open Scope Z_scope.

Lemma collected_sum : forall per roi shape cl ce fm paths r cs V, Permutation (filter (cluster_centre cl ce) (pixels shape)) cs ->
  sum_over (counted per roi shape cl ce fm paths r) (fun w => V (snd w) (snd (fst w))) = collected per roi shape paths fm cs V r.
Proof.
  intros per roi shape cl ce fm paths r cs V P. unfold counted, collected, leaving. rewrite sum_filter, sum_prod, sum_filter.
  apply sum_ext. intros st _. cbn [fst snd]. destruct (same_offset (offset (three roi) r) (fst st)); cbn [andb].
  - rewrite (EnsembleSums.sum_perm _ _ _ _ P). apply sum_ext. intros p _. destruct (in_phase per (three shape) fm p (snd st)); reflexivity.
  - apply sum_zero.
Qed.

Section Top.
Variables (asrt per : bool) (shape labels : list Z).
Hypothesis HS : shape <> [].
Hypothesis HF : Forall (fun n => 1 <= n) shape.
Hypothesis HL : lenZ labels = zprod shape.

Definition highest (ce : list Z) : Prop := lenZ ce = zprod shape /\ forall p, pixel shape p ->
    (forall v, named shape labels v -> centre_pixel per shape labels v p ->
       (forall w, named shape labels w -> centre_pixel per shape labels w p -> w <= v) -> zn ce p = v) /\
    ((forall v, named shape labels v -> ~ centre_pixel per shape labels v p) -> zn ce p = 0).

Lemma centre_dec : forall v p, named shape labels v -> {centre_pixel per shape labels v p} + {~ centre_pixel per shape labels v p}.
Proof.
  intros v p [O N]. assert (H : exists q, centre_pixel per shape labels v q) by (apply centre_exists; auto).
  assert (K : {q | centre_pixel per shape labels v q}).
  { destruct (index_of shape (match center (map IZR shape) (positions_of shape (hits labels v)) per with Ok r => r | _ => [] end)) as [i| | |] eqn:E.
    1:{ exists i. destruct (index_row per shape labels HS HF HL v _ O (hits_carries shape labels v HL)) as (row & j & ER & EJ & C). rewrite ER in E. assert (i = j) by congruence. subst. exact C. }
    all: exfalso; destruct (index_row per shape labels HS HF HL v _ O (hits_carries shape labels v HL)) as (row & j & ER & EJ & C); rewrite ER in E; congruence. }
  destruct K as [q Q]. destruct (Z.eq_dec p q) as [->|NE]; [now left|right]. intro C. apply NE. eapply (centre_unique per shape labels HF HL v); eauto.
Qed.

(** The highest label centered at [p], if any. *)
Lemma highest_at : forall p, (exists v, named shape labels v /\ centre_pixel per shape labels v p /\ forall w, named shape labels w -> centre_pixel per shape labels w p -> w <= v) \/
  (forall v, named shape labels v -> ~ centre_pixel per shape labels v p).
Proof.
  intro p.
  assert (A : forall l, (forall v, In v l -> named shape labels v) ->
    (exists v, In v l /\ centre_pixel per shape labels v p /\ forall w, In w l -> centre_pixel per shape labels w p -> w <= v) \/ (forall v, In v l -> ~ centre_pixel per shape labels v p)).
  { induction l as [|u l IH]; intro H; [right; intros v []|].
    destruct IH as [(v & I & C & M)|N]; [intros; apply H; now right| |].
    - destruct (centre_dec u p (H u (or_introl eq_refl))) as [CU|NU].
      + left. destruct (Z_le_gt_dec u v).
        * exists v. split; [now right|]. split; auto. intros w [<-|W] CW; [lia|auto].
        * exists u. split; [now left|]. split; auto. intros w [<-|W] CW; [lia|]. specialize (M w W CW). lia.
      + left. exists v. split; [now right|]. split; auto. intros w [<-|W] CW; [tauto|auto].
    - destruct (centre_dec u p (H u (or_introl eq_refl))) as [CU|NU].
      + left. exists u. split; [now left|]. split; auto. intros w [<-|W] CW; [lia|]. exfalso. eapply N; eauto.
      + right. intros v [<-|I]; auto. }
  destruct (A (names_of labels)) as [(v & I & C & M)|N].
  - intros v V. apply (names_named shape labels HL) in V. exact V.
  - left. exists v. apply (names_named shape labels HL) in I. split; auto. split; auto. intros w W. apply M. apply (names_named shape labels HL). exact W.
  - right. intros v V. apply N. apply (names_named shape labels HL). exact V.
Qed.

Lemma start_counts : forall ce p, highest ce -> pixel shape p ->
  (cluster_centre labels ce p = true <-> zn labels p <> 0 /\ counts per shape labels (zn labels p) /\ centre_pixel per shape labels (zn labels p) p).
Proof.
  intros ce p [LC H] P. destruct (H p P) as [H1 H2]. unfold cluster_centre. rewrite andb_true_iff, negb_true_iff, Z.eqb_neq, Z.eqb_eq. split.
  - intros [N E]. destruct (highest_at p) as [(v & NV & C & M)|NO]; [|rewrite (H2 NO) in N; congruence].
    rewrite (H1 v NV C M) in *. rewrite E in *. split; auto. split; [|exact C]. split; auto. split; auto. exists p. auto.
  - intros (N & (_ & NV & q & C & E & M) & CP). assert (O : occurs shape labels (zn labels p)) by apply NV.
    assert (q = p) by (eapply (centre_unique per shape labels HF HL (zn labels p)); eauto). subst q.
    rewrite (H1 _ NV CP M). auto.
Qed.

(** The starting points are the center pixels of the labels that count. *)
Lemma starts : forall ce, highest ce -> exists vs cs, NoDup vs /\ (forall v, In v vs <-> counts per shape labels v) /\
  Forall2 (centre_pixel per shape labels) vs cs /\ Permutation (filter (cluster_centre labels ce) (pixels shape)) cs.
Proof.
  intros ce H. set (cs := filter (cluster_centre labels ce) (pixels shape)). exists (map (zn labels) cs), cs.
  assert (ND : NoDup cs) by (apply NoDup_filter, zrange_NoDup).
  assert (I : forall p, In p cs <-> pixel shape p /\ zn labels p <> 0 /\ counts per shape labels (zn labels p) /\ centre_pixel per shape labels (zn labels p) p).
  { intro p. unfold cs, pixels. rewrite filter_In, zrange_In. split; intros [P Q]; (split; [exact P|]); apply (start_counts ce p H P); auto. }
  split; [|split; [|split; [|apply Permutation_refl]]].
  - assert (J : forall p q, In p cs -> In q cs -> zn labels p = zn labels q -> p = q).
    { intros p q HP HQ E. apply I in HP. apply I in HQ. destruct HP as (_ & _ & (_ & NV & _) & C1). destruct HQ as (_ & _ & _ & C2). rewrite <- E in C2.
      eapply (centre_unique per shape labels HF HL (zn labels p)); eauto. apply NV. }
    clear -ND J. induction ND as [|p l NI ND IH]; cbn [map]; constructor.
    + rewrite in_map_iff. intros (q & E & Q). apply NI. rewrite (J p q); auto; [now left|now right].
    + apply IH. intros; apply J; auto; now right.
  - intro v. rewrite in_map_iff. split.
    + intros (p & <- & P). apply I in P. tauto.
    + intros C. pose proof C as (N & NV & p & CP & E & M). exists p. split; auto. apply I. rewrite E. repeat split; auto; try apply CP; try apply NV. exists p. auto.
  - assert (A : forall p, In p cs -> centre_pixel per shape labels (zn labels p) p) by (intros p P; apply I in P; tauto).
    clear -A. induction cs as [|p l IH]; cbn [map]; constructor; [apply A; now left|]. apply IH. intros; apply A; now right.
Qed.

End Top.

Lemma W2c_collapsed : forall asrt per var roi shape mode, shapes per roi shape -> walkable mode roi -> even_sided roi -> shape <> [] ->
  exists paths, paths_of mode (three roi) paths /\
  forall labels f fm, lenZ labels = zprod shape -> is_image shape f -> is_mask shape fm ->
  exists ce e vs cs, collapse asrt shape labels per = Ok ce /\
    fresh asrt roi per var (CallW2c (mkimg shape labels) (mkimg shape ce) f (Some fm) mode) = Ok e /\
    NoDup vs /\ (forall v, In v vs <-> counts per shape labels v) /\ Forall2 (centre_pixel per shape labels) vs cs /\
    forall r, pixel roi r ->
      first_at e r = collected per roi shape paths (i_vals fm) cs (value_at per (three shape) (i_vals f)) r /\
      norm_at e r = collected per roi shape paths (i_vals fm) cs (fun _ _ => 1%Qc) r /\
      result_at e r = Exact (quotient (first_at e r) (norm_at e r)).
Proof.
  intros asrt per var roi shape mode H1 H2 H3 N.
  destruct (W2c_exact asrt per var roi shape mode H1 H2 H3) as (paths & P & A). exists paths. split; auto.
  intros labels f fm HL HFI HM. assert (HF : Forall (fun n => 1 <= n) shape) by apply H1.
  destruct (collapse_ok asrt per shape labels N HF HL) as (ce & E & LC & B).
  destruct (A (mkimg shape labels) (mkimg shape ce) f fm) as (e & EF & RS & C); auto; try (split; auto; fail).
  destruct (starts per shape labels N HF HL ce (conj LC B)) as (vs & cs & ND & I & F2 & PM).
  exists ce, e, vs, cs. do 5 (split; auto). intros r R. specialize (C r R). cbv zeta in C. destruct C as (C1 & C2 & C3).
  cbn [i_vals] in C1, C2. rewrite (collected_sum per roi shape labels ce (i_vals fm) paths r cs (value_at per (three shape) (i_vals f)) PM) in C1.
  split; auto. split; auto. rewrite C2, <- sum_one. apply (collected_sum per roi shape labels ce (i_vals fm) paths r cs (fun _ _ => 1%Qc) PM).
Qed.

(** Clusters that contain their centers, in an image with background. *)
Lemma all_count : forall asrt per shape img lab, good_shape shape -> (length shape <= 3)%nat -> Forall (fun n => 1 <= n) shape -> lenZ img = zprod shape ->
  clusters asrt shape img per = Ok lab -> (exists p, pixel shape p /\ zn img p = 0) ->
  (forall v p, v <> 0 -> occurs shape lab v -> centre_pixel per shape lab v p -> zn lab p = v) ->
  forall v, counts per shape lab v <-> v <> 0 /\ occurs shape lab v.
Proof.
  intros asrt per shape img lab HG HR HF HL E (b & B & B0) OWN v.
  destruct (clusters_ok asrt shape img per HG HR HL) as (lab' & E' & LL & ZB & _ & _ & NN & _). assert (lab' = lab) by congruence. subst lab'.
  split; [intros (N & (O & _) & _); auto|]. intros [N O].
  assert (HS : shape <> []) by apply HG.
  assert (NAMED : forall w, occurs shape lab w -> w <> 0 -> named shape lab w).
  { intros w OW W0. split; auto. exists 0. split; [exists b; split; auto; apply ZB; auto|]. destruct OW as (q & Q & <-). specialize (NN q Q). lia. }
  split; auto. split; auto. destruct (centre_exists per shape lab HS HF LL v O) as (p & C). exists p. split; auto. split; auto.
  intros w [OW (u & (q & Q & QU) & LT)] CW. assert (w <> 0) by (specialize (NN q Q); lia).
  pose proof (OWN v p N O C). pose proof (OWN w p ltac:(auto) OW CW). lia.
Qed.
