(** * SafeProofs: calls with images of one shape never leave the images, whatever the values of the masks (C132, proofs only) *)

From Coq Require Import ZArith QArith Qcanon List Bool Lia.
From Verif Require Import Base BaseLemmas SpecCluster ClusterGeom Array3 Array3Lemmas Path SpecPath SpecDilate DilateTop Ensemble SpecEnsemble EnsembleSums EnsembleLin EnsembleWindow EnsembleTop EnsembleL EnsembleW2c EnsembleAdd EnsembleRun SpecSafe.
Import ListNotations.
Open Scope Z_scope.

Section Fine.
Variables (asrt per var : bool) (roi shape : list Z) (n0 n1 n2 k0 k1 k2 : Z).
Hypothesis HD : dims3 per roi shape n0 n1 n2 k0 k1 k2.
Notation LIN s := (lin vecE (ixE k0 k1 k2) (before asrt s per var roi k0 k1 k2) (okS s per var roi k0 k1 k2)).

Lemma lin_pos : forall A (b : bool) (z : A) vals (F : arr A) s pt fm gm T1 T2 TN, padded n0 n1 n2 k0 k1 k2 b z vals F ->
  (forall p, 0 <= p < n0 * n1 * n2 -> lin vecE (ixE k0 k1 k2) (okS s per var roi k0 k1 k2) (okS s per var roi k0 k1 k2)
     (fun e => pt e (wpos n1 n2 k0 k1 k2 p)) (Ok (cnt3 per n0 n1 n2 k0 k1 k2 fm gm T1 T2 TN p))) ->
  exists D, LIN s (fun e => foldM pt (positions (PW k0 k1 k2) F) (set_stat e s)) (Ok D).
Proof.
  intros A b z vals F s pt fm gm T1 T2 TN HP HPT. eexists.
  apply (lin_start asrt s per var roi k0 k1 k2 (fun e => foldM pt (positions (PW k0 k1 k2) F) e)).
  rewrite (padded_pos n0 n1 n2 k0 k1 k2 (D_pn _ _ _ _ _ _ _ _ _ HD) _ _ _ _ _ HP).
  assert (E : forall e, foldM pt (map (wpos n1 n2 k0 k1 k2) (zrange 0 (n0 * n1 * n2))) e =
    foldM (fun e p => pt e (wpos n1 n2 k0 k1 k2 p)) (zrange 0 (n0 * n1 * n2)) e).
  { generalize (zrange 0 (n0 * n1 * n2)). induction l as [|x l IH]; intros e; [reflexivity|]. cbn [map foldM]. destruct (pt e _); cbn [bind]; auto. }
  eapply lin_ext; [intros e _; apply E|]. apply lin_fold_ok with (D := fun p => cnt3 per n0 n1 n2 k0 k1 k2 fm gm T1 T2 TN p). intros p Hp. apply zrange_In in Hp. auto.
Qed.

Definition zo (m : img Z) : Prop := asrt = true -> forall x, In x (i_vals m) -> x = 0 \/ x = 1.

Lemma zo_assert : forall m, zo m -> assertb asrt (binary m) = Ok tt.
Proof. intros m H. unfold zo in H. destruct asrt; [|reflexivity]. rewrite (binary_ok m (H eq_refl)). reflexivity. Qed.

Ltac prelude :=
  repeat first
    [ rewrite shape_eqb_refl | rewrite Nat.eqb_refl
    | match goal with
      | H : zo ?m |- context [binary ?m] => rewrite (zo_assert m H)
      | H : before _ _ _ _ _ _ _ _ ?e |- context [assertb _ (unlocked ?e _)] => rewrite (before_assert _ _ _ _ _ _ _ _ _ H)
      end
    | rewrite (assert_true asrt true eq_refl) | rewrite bind_Ok ].

Lemma S2_fine : forall f g fm gm, is_image shape f -> is_image shape g -> is_image shape fm -> is_image shape gm -> zo fm -> zo gm ->
  exists D, LIN S_S2 (fun e => S2 asrt e f g fm gm) (Ok D).
Proof.
  intros f g fm gm Hf Hg Hfm Hgm Zf Zg. pose proof HD as [HL H3 HN HK PN PK HFit].
  pose proof (image_len per roi shape n0 n1 n2 k0 k1 k2 HD _ _ Hfm) as Lfm. pose proof (image_len per roi shape n0 n1 n2 k0 k1 k2 HD _ _ Hgm) as Lgm.
  destruct (pad_mode_ok per n0 n1 n2 k0 k1 k2 PN PK HFit _ 0%Qc (i_vals f)) as (F & EF & PF).
  destruct (pad_mode_ok per n0 n1 n2 k0 k1 k2 PN PK HFit _ 0%Qc (i_vals g)) as (G & EG & PG).
  pose proof (mask_padded per n0 n1 n2 k0 k1 k2 PN PK (i_vals fm)) as PFm. pose proof (mask_padded per n0 n1 n2 k0 k1 k2 PN PK (i_vals gm)) as PGm.
  edestruct (lin_pos Qc per 0%Qc (i_vals f) F S_S2 (S2_point (PW k0 k1 k2) F G (pad_mask per (mkarr n0 n1 n2 (i_vals fm)) (PW k0 k1 k2)) (pad_mask per (mkarr n0 n1 n2 (i_vals gm)) (PW k0 k1 k2)))) as [D HDD]; [exact PF| |].
  { intros p Hp. eapply S2_point_lin with (shape := shape) (f := i_vals f) (g := i_vals g) (fm := i_vals fm) (gm := i_vals gm); eauto. }
  exists D. eapply lin_ext; [|exact HDD].
  intros e HB. pose proof HB as [HO _]. unfold S2. destruct Hf as [Sf Lf]. destruct Hg as [Sg Lg]. pose proof Hfm as [Sfm _]. pose proof Hgm as [Sgm _].
  rewrite Sf, Sg, Sfm, Sgm, (ok_roi _ _ _ _ _ _ _ HO), HL, (roi_ok_ok _ _ _ _ _ _ _ HO) by lia. prelude. cbv zeta.
  rewrite (ok_pad _ _ _ _ _ _ _ HO), (ok_per _ _ _ _ _ _ _ HO), (pad_PW k0 k1 k2 PK).
  rewrite (to3_ok _ f n0 n1 n2), (to3_ok _ g n0 n1 n2), (to3_ok _ fm n0 n1 n2), (to3_ok _ gm n0 n1 n2) by congruence. rewrite !bind_Ok.
  rewrite EF, EG, !bind_Ok. reflexivity.
Qed.

Lemma C2_fine : forall f g fm gm, is_image shape f -> is_image shape g -> is_image shape fm -> is_image shape gm -> zo fm -> zo gm ->
  exists D, LIN S_C2 (fun e => C2 asrt e f g fm gm) (Ok D).
Proof.
  intros f g fm gm Hf Hg Hfm Hgm Zf Zg. pose proof HD as [HL H3 HN HK PN PK HFit].
  pose proof (image_len per roi shape n0 n1 n2 k0 k1 k2 HD _ _ Hfm) as Lfm. pose proof (image_len per roi shape n0 n1 n2 k0 k1 k2 HD _ _ Hgm) as Lgm.
  destruct (pad_mode_ok per n0 n1 n2 k0 k1 k2 PN PK HFit _ 0 (i_vals f)) as (F & EF & PF).
  destruct (pad_mode_ok per n0 n1 n2 k0 k1 k2 PN PK HFit _ 0 (i_vals g)) as (G & EG & PG).
  pose proof (mask_padded per n0 n1 n2 k0 k1 k2 PN PK (i_vals fm)) as PFm. pose proof (mask_padded per n0 n1 n2 k0 k1 k2 PN PK (i_vals gm)) as PGm.
  edestruct (lin_pos Z per 0 (i_vals f) F S_C2 (C2_point (PW k0 k1 k2) F G (pad_mask per (mkarr n0 n1 n2 (i_vals fm)) (PW k0 k1 k2)) (pad_mask per (mkarr n0 n1 n2 (i_vals gm)) (PW k0 k1 k2)))) as [D HDD]; [exact PF| |].
  { intros p Hp. eapply C2_point_lin with (shape := shape) (f := i_vals f) (g := i_vals g) (fm := i_vals fm) (gm := i_vals gm); eauto. }
  exists D. eapply lin_ext; [|exact HDD].
  intros e HB. pose proof HB as [HO _]. unfold C2. destruct Hf as [Sf Lf]. destruct Hg as [Sg Lg]. pose proof Hfm as [Sfm _]. pose proof Hgm as [Sgm _].
  rewrite Sf, Sg, Sfm, Sgm, (ok_roi _ _ _ _ _ _ _ HO), HL, (roi_ok_ok _ _ _ _ _ _ _ HO) by lia. prelude. cbv zeta.
  rewrite (ok_pad _ _ _ _ _ _ _ HO), (ok_per _ _ _ _ _ _ _ HO), (pad_PW k0 k1 k2 PK).
  rewrite (to3_ok _ f n0 n1 n2), (to3_ok _ g n0 n1 n2), (to3_ok _ fm n0 n1 n2), (to3_ok _ gm n0 n1 n2) by congruence. rewrite !bind_Ok.
  rewrite EF, EG, !bind_Ok. reflexivity.
Qed.

Lemma W2_fine : forall f g gm, is_image shape f -> is_image shape g -> is_image shape gm -> zo gm ->
  exists D, LIN S_W2 (fun e => W2 asrt e f g gm) (Ok D).
Proof.
  intros f g gm Hf Hg Hgm Zg. pose proof HD as [HL H3 HN HK PN PK HFit].
  pose proof (image_len per roi shape n0 n1 n2 k0 k1 k2 HD _ _ Hgm) as Lgm.
  destruct (pad_mode_ok per n0 n1 n2 k0 k1 k2 PN PK HFit _ 0%Qc (i_vals f)) as (F & EF & PF).
  destruct (pad_mode_ok per n0 n1 n2 k0 k1 k2 PN PK HFit _ 0%Qc (i_vals g)) as (G & EG & PG).
  pose proof (mask_padded per n0 n1 n2 k0 k1 k2 PN PK (i_vals gm)) as PGm.
  edestruct (lin_pos Qc per 0%Qc (i_vals f) F S_W2 (W2_point (PW k0 k1 k2) F G (pad_mask per (mkarr n0 n1 n2 (i_vals gm)) (PW k0 k1 k2)))) as [D HDD]; [exact PF| |].
  { intros p Hp. eapply W2_point_lin with (shape := shape) (w := i_vals f) (g := i_vals g) (gm := i_vals gm); eauto. }
  exists D. eapply lin_ext; [|exact HDD].
  intros e HB. pose proof HB as [HO _]. unfold W2. destruct Hf as [Sf Lf]. destruct Hg as [Sg Lg]. pose proof Hgm as [Sgm _].
  rewrite Sf, Sg, Sgm, (ok_roi _ _ _ _ _ _ _ HO), HL, (roi_ok_ok _ _ _ _ _ _ _ HO) by lia. prelude. cbv zeta.
  rewrite (ok_pad _ _ _ _ _ _ _ HO), (ok_per _ _ _ _ _ _ _ HO), (pad_PW k0 k1 k2 PK).
  rewrite (to3_ok _ f n0 n1 n2), (to3_ok _ g n0 n1 n2), (to3_ok _ gm n0 n1 n2) by congruence. rewrite !bind_Ok.
  rewrite EF, EG, !bind_Ok. reflexivity.
Qed.

Lemma hh_fine : forall f fm, is_image shape f -> is_image shape fm -> zo fm ->
  exists D, LIN S_heightheight (fun e => heightheight asrt e f fm) (Ok D).
Proof.
  intros f fm Hf Hfm Zf. pose proof HD as [HL H3 HN HK PN PK HFit].
  pose proof (image_len per roi shape n0 n1 n2 k0 k1 k2 HD _ _ Hfm) as Lfm.
  destruct (pad_mode_ok per n0 n1 n2 k0 k1 k2 PN PK HFit _ 0%Qc (i_vals f)) as (F & EF & PF).
  pose proof (mask_padded per n0 n1 n2 k0 k1 k2 PN PK (i_vals fm)) as PFm.
  edestruct (lin_pos Qc per 0%Qc (i_vals f) F S_heightheight (hh_point (PW k0 k1 k2) F (pad_mask per (mkarr n0 n1 n2 (i_vals fm)) (PW k0 k1 k2)))) as [D HDD]; [exact PF| |].
  { intros p Hp. eapply hh_point_lin with (shape := shape); eauto. }
  exists D. eapply lin_ext; [|exact HDD].
  intros e HB. pose proof HB as [HO _]. unfold heightheight. destruct Hf as [Sf Lf]. pose proof Hfm as [Sfm _].
  rewrite Sf, Sfm, (ok_roi _ _ _ _ _ _ _ HO), HL, (roi_ok_ok _ _ _ _ _ _ _ HO) by lia. prelude. cbv zeta.
  rewrite (ok_pad _ _ _ _ _ _ _ HO), (ok_per _ _ _ _ _ _ _ HO), (pad_PW k0 k1 k2 PK).
  rewrite (to3_ok _ f n0 n1 n2), (to3_ok _ fm n0 n1 n2) by congruence. rewrite !bind_Ok.
  rewrite EF, !bind_Ok. reflexivity.
Qed.

Lemma L_fine : forall f mode, is_image shape f -> walkable mode roi -> exists D, LIN S_L (fun e => L asrt e f mode) (Ok D).
Proof.
  intros f mode Hf HW. eexists. apply (L_lin asrt per var roi shape n0 n1 n2 k0 k1 k2 HD f mode Hf (paths_exist _ _ _ _ _ _ _ _ _ mode HD HW)).
Qed.

Lemma W2c_fine : forall cl ce f fm mode, is_image shape cl -> is_image shape ce -> is_image shape f -> is_image shape fm -> zo fm ->
  walkable mode roi -> even_sided roi -> exists D, LIN S_W2c (fun e => W2c asrt e cl ce f fm mode) (Ok D).
Proof.
  intros cl ce f fm mode Hcl Hce Hf Hfm Zf HW HE. pose proof (paths_exist _ _ _ _ _ _ _ _ _ mode HD HW) as HG. pose proof HD as [HL H3 HN HK PN PK HFit].
  assert (HC : k2 = 1 \/ (k1 - 1) / 2 = (k2 - 1) / 2).
  { destruct roi as [|a [|b [|c [|d s]]]]; cbn [shape3] in HK; inversion HK; subst; auto. }
  destruct (pad_mode_ok per n0 n1 n2 k0 k1 k2 PN PK HFit Qc 0%Qc (i_vals f)) as (F & EF & PF).
  destruct (pad_mode_ok per n0 n1 n2 k0 k1 k2 PN PK HFit Z 0 (i_vals fm)) as (Fm & EM & PM).
  destruct (pad_mode_ok per n0 n1 n2 k0 k1 k2 PN PK HFit Z 0 (i_vals cl)) as (C & EC & PC).
  destruct (pad_mode_ok per n0 n1 n2 k0 k1 k2 PN PK HFit Z 0 (i_vals ce)) as (Ce & EE & PE).
  destruct Hcl as [Scl _]. destruct Hce as [Sce _]. destruct Hf as [Sf _]. destruct Hfm as [Sfm _].
  eexists. eapply lin_ext with (pt' := fun e => foldM (W2c_stamp (PW k0 k1 k2) C Ce Fm F mode) (edge [k0; k1; k2]) (set_stat e S_W2c)).
  { intros e HB. pose proof HB as [HO _]. unfold W2c.
    rewrite Sf, Sfm, Scl, Sce, (ok_roi _ _ _ _ _ _ _ HO), HL, (roi_ok_ok _ _ _ _ _ _ _ HO) by lia. prelude. cbv zeta.
    rewrite (ok_pad _ _ _ _ _ _ _ HO), (ok_per _ _ _ _ _ _ _ HO), (pad_PW k0 k1 k2 PK).
    rewrite (to3_ok _ f n0 n1 n2), (to3_ok _ fm n0 n1 n2), (to3_ok _ cl n0 n1 n2), (to3_ok _ ce n0 n1 n2) by congruence.
    rewrite !bind_Ok, EF, bind_Ok, EM, bind_Ok, EC, bind_Ok, EE, bind_Ok.
    destruct HO as [_ _ _ (A0 & A1 & A2 & _) _ _]. rewrite A0, A1, A2, (stamps_edge _ _ _ _ _ _ _ _ _ HD). reflexivity. }
  apply (lin_start asrt S_W2c per var roi k0 k1 k2 (fun e => foldM (W2c_stamp (PW k0 k1 k2) C Ce Fm F mode) (edge [k0; k1; k2]) e)).
  apply (lin_fold_ok vecE (ixE k0 k1 k2) _ (W2c_stamp (PW k0 k1 k2) C Ce Fm F mode)
    (fun x i => match fst i with
       | C_first => tot per n0 n1 n2 k0 k1 k2 (i_vals cl) (i_vals ce) (i_vals f) (i_vals fm) (path_for k0 k1 k2 mode x) (true, snd i)
       | C_second => 0%Qc
       | C_norm => tot per n0 n1 n2 k0 k1 k2 (i_vals cl) (i_vals ce) (i_vals f) (i_vals fm) (path_for k0 k1 k2 mode x) (false, snd i) end)).
  intros x IN. pose proof (HG x IN) as HX. destruct (edge_In k0 k1 k2 x IN) as (r & Hr & ->). eapply W2c_stamp_lin; eauto.
Qed.
End Fine.
