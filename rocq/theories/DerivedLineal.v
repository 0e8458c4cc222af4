(** * DerivedLineal: order relations of the lineal path function (proofs only) *)

From Coq Require Import ZArith QArith Qcanon List Bool Lia Permutation.
From Verif Require Import Base BaseLemmas SpecCluster ClusterGeom ClusterMain Array3 Array3Lemmas Path SpecPath SpecDilate DilateTop
  Ensemble SpecEnsemble EnsembleSums EnsembleLin EnsembleWindow EnsembleTop EnsembleL SpecSymmetry SpecMoved DerivedCluster DerivedDilate DerivedEnsemble SpecAlgebra DerivedAlgebra.
Import ListNotations.
Open Scope Z_scope.

(** ** The paths do not depend on the image *)

Lemma L_counts_all : forall per roi shape mode, shapes per roi shape -> walkable mode roi ->
  exists paths, paths_of mode (three roi) paths /\
  forall asrt var f, is_image shape f ->
  exists e, fresh asrt roi per var (CallL f mode) = Ok e /\ roi_shaped roi e /\
    forall r, pixel roi r ->
      let d := offset (three roi) r in
      let walks := list_prod paths (pixels shape) in
      let free := fun walk : list (list Z) * Z => SpecEnsemble.reaches (in_phase per (three shape) (i_vals f) (snd walk)) d (fst walk) in
      let through := fun walk : list (list Z) * Z => visits d (fst walk) in
      first_at e r = zq (lenZ (filter free walks)) /\
      norm_at e r = zq (lenZ (filter through walks)) /\
      result_at e r = Exact (quotient (first_at e r) (norm_at e r)).
Proof.
  intros per roi shape mode HS W. destruct (shapes_dims3 _ _ _ HS) as (n0 & n1 & n2 & k0 & k1 & k2 & HD).
  rewrite (three_eq roi k0 k1 k2), (three_eq shape n0 n1 n2) by apply HD.
  pose proof (paths_exist _ _ _ _ _ _ _ _ _ mode HD W) as PE.
  exists (map (path_for k0 k1 k2 mode) (edge [k0; k1; k2])). split.
  { unfold paths_of. revert PE. induction (edge [k0; k1; k2]) as [|x l IH]; intros PE; cbn [map]; constructor; [|apply IH; intros; apply PE; right; auto].
    destruct (PE x (or_introl eq_refl)) as [G1 G2]. split; auto. eexists. exact G1. }
  intros asrt var f Hf.
  destruct (L_exact asrt per var _ _ _ _ _ _ _ _ HD f mode Hf PE) as (e & H1 & H2 & H3 & H4).
  exists e. split; [exact H1|]. split; [exact H2|exact H4].
Qed.

Lemma paths_head : forall mode roi paths, paths_of mode roi paths -> forall rows, In rows paths -> exists rest, rows = [0; 0; 0] :: rest.
Proof.
  intros mode roi paths HP. unfold paths_of in HP. induction HP as [|x rows l l' (_ & HB & _) HP IH]; intros y IN; [destruct IN|]. destruct IN as [<-|IN]; auto.
  destruct rows as [|z rest]; [discriminate|]. cbn in HB. inversion HB. eauto.
Qed.

(** ** Counting over walks *)

Lemma count_walks : forall (A B : Type) (P : A * B -> bool) (V : A -> bool) (l : list A) (m : list B) c,
  0 <= c -> (forall x y, P (x, y) = true -> V x = true) ->
  (forall x, In x l -> lenZ (filter (fun y => P (x, y)) m) <= c) ->
  lenZ (filter P (list_prod l m)) <= lenZ (filter V l) * c.
Proof.
  intros A B P V l m c Hc HV HC. induction l as [|x l IH]; [unfold lenZ; cbn; lia|].
  cbn [list_prod]. rewrite filter_app. assert (LA : forall (u v : list (A * B)), lenZ (u ++ v) = lenZ u + lenZ v) by (intros; unfold lenZ; rewrite app_length; lia).
  rewrite LA. specialize (IH (fun y IN => HC y (or_intror IN))).
  assert (EM : lenZ (filter P (map (fun y => (x, y)) m)) = lenZ (filter (fun y => P (x, y)) m)).
  { unfold lenZ. clear. induction m as [|y m IH]; auto. cbn [map filter]. destruct (P (x, y)); cbn [length]; lia. }
  rewrite EM. cbn [filter]. destruct (V x) eqn:EV.
  - rewrite lenZ_cons. specialize (HC x (or_introl eq_refl)). nia.
  - assert (Z0 : filter (fun y => P (x, y)) m = []).
    { destruct (filter (fun y => P (x, y)) m) as [|y l'] eqn:E; auto. assert (In y (filter (fun y => P (x, y)) m)) by (rewrite E; left; auto).
      apply filter_In in H. destruct H as [_ H]. rewrite (HV x y H) in EV. discriminate. }
    rewrite Z0. unfold lenZ at 1. cbn [length]. lia.
Qed.

Lemma count_through : forall (A B : Type) (V : A -> bool) (l : list A) (m : list B),
  lenZ (filter (fun w : A * B => V (fst w)) (list_prod l m)) = lenZ (filter V l) * lenZ m.
Proof.
  intros A B V l m. induction l as [|x l IH]; [reflexivity|]. cbn [list_prod filter]. rewrite filter_app.
  assert (LA : forall (u v : list (A * B)), lenZ (u ++ v) = lenZ u + lenZ v) by (intros; unfold lenZ; rewrite app_length; lia).
  rewrite LA, IH. assert (EM : lenZ (filter (fun w : A * B => V (fst w)) (map (fun y => (x, y)) m)) = if V x then lenZ m else 0).
  { unfold lenZ. clear. induction m as [|y m IH]; [destruct (V x); auto|]. cbn [map filter fst]. destruct (V x); cbn [length]; lia. }
  rewrite EM. destruct (V x); [rewrite lenZ_cons|]; lia.
Qed.

Lemma reaches_first : forall good d row rows, SpecEnsemble.reaches good d (row :: rows) = true -> good row = true.
Proof. intros good d row rows H. cbn [SpecEnsemble.reaches] in H. apply andb_true_iff in H. apply H. Qed.

Lemma reaches_goal : forall good d rows, SpecEnsemble.reaches good d rows = true -> good d = true.
Proof.
  intros good d rows. induction rows as [|x rows IH]; intros H; [discriminate|]. cbn [SpecEnsemble.reaches] in H. apply andb_true_iff in H. destruct H as [G H].
  apply orb_true_iff in H. destruct H as [H|H]; auto. apply same_offset_iff in H. subst d. exact G.
Qed.

Lemma reaches_mono : forall (good good' : list Z -> bool) d rows, (forall x, good x = true -> good' x = true) ->
  SpecEnsemble.reaches good d rows = true -> SpecEnsemble.reaches good' d rows = true.
Proof.
  intros good good' d rows HG. induction rows as [|x rows IH]; intros H; [discriminate|]. cbn [SpecEnsemble.reaches] in *. apply andb_true_iff in H. destruct H as [G H].
  rewrite (HG _ G). cbn [andb]. apply orb_true_iff in H. apply orb_true_iff. destruct H; auto.
Qed.

Lemma reaches_always : forall (good : list Z -> bool) d rows, (forall x, In x rows -> good x = true) -> SpecEnsemble.reaches good d rows = visits d rows.
Proof.
  intros good d rows HG. induction rows as [|x rows IH]; [reflexivity|]. cbn [SpecEnsemble.reaches visits existsb]. rewrite (HG x (or_introl eq_refl)). cbn [andb].
  f_equal. apply IH. intros; apply HG; right; auto.
Qed.

(** ** Pairs, seen in three dimensions *)

Lemma pairs3 : forall per roi shape, shapes per roi shape -> forall r T, pixel roi r ->
  sum_over (pairs per shape (offset roi r)) T = sum_over (pairs per (three shape) (offset (three roi) r)) T.
Proof.
  intros per roi shape HS r T Hr. destruct (shapes_dims3 _ _ _ HS) as (n0 & n1 & n2 & k0 & k1 & k2 & HD). destruct HD as [HL H3 HN HK PN PK HF].
  rewrite (three_eq roi k0 k1 k2), (three_eq shape n0 n1 n2) by auto. unfold pixel in Hr. rewrite (shape3_prod _ _ _ _ HK) in Hr.
  rewrite (sum_pairs per shape roi n0 n1 n2 k0 k1 k2) by (auto; lia).
  rewrite (sum_pairs per [n0; n1; n2] [k0; k1; k2] n0 n1 n2 k0 k1 k2) by (auto; lia). reflexivity.
Qed.

Lemma zprod3 : forall shape, (length shape <= 3)%nat -> zprod (three shape) = zprod shape.
Proof. intros [|a [|b [|c [|d s]]]] H; cbn [length] in H; try lia; cbn [three zprod]; lia. Qed.

Lemma three_pos : forall shape, Forall (fun n => 1 <= n) shape -> Forall (fun n => 1 <= n) (three shape).
Proof. intros [|a [|b s]] H; cbn [three]; auto; [repeat constructor; lia|repeat constructor; inversion H; subst; auto; lia|]. destruct s; [|auto]. inversion H as [|? ? Ha H']; inversion H' as [|? ? Hb H'']; subst. repeat constructor; auto; lia. Qed.

Lemma three_length : forall shape, (length shape <= 3)%nat -> length (three shape) = 3%nat.
Proof. intros [|a [|b [|c [|d s]]]] H; cbn [length three] in *; lia. Qed.

Lemma filter_len_le : forall (A : Type) (P : A -> bool) l, lenZ (filter P l) <= lenZ l.
Proof. intros A P l. unfold lenZ. induction l as [|x l IH]; cbn [filter length]; [lia|]. destruct (P x); cbn [length]; lia. Qed.

(** The number of pixels from which one gets to [d] is at most the number of pairs of
    foreground pixels. *)
Definition both (f : list Z) (pq : Z * Z) : bool := negb (zn f (fst pq) =? 0) && negb (zn f (snd pq) =? 0).

Lemma filter_le_in : forall (A : Type) (P Q : A -> bool) l, (forall x, In x l -> P x = true -> Q x = true) -> lenZ (filter P l) <= lenZ (filter Q l).
Proof.
  intros A P Q l H. unfold lenZ. induction l as [|x l IH]; cbn [filter]; [lia|]. specialize (IH (fun y IN => H y (or_intror IN))).
  pose proof (H x (or_introl eq_refl)). destruct (P x), (Q x); cbn [length]; try lia; discriminate (H0 eq_refl).
Qed.

Lemma one_path_below : forall per shape f d rest, Forall (fun n => 1 <= n) shape -> length shape = 3%nat ->
  lenZ (filter (fun p => SpecEnsemble.reaches (in_phase per shape f p) d ([0; 0; 0] :: rest)) (pixels shape)) <= lenZ (filter (both f) (pairs per shape d)).
Proof.
  intros per shape f d rest HP HL. unfold lenZ. apply inj_le.
  rewrite <- (map_length fst (filter (both f) (pairs per shape d))). apply NoDup_incl_length; [apply NoDup_filter; apply zrange_NoDup|].
  intros p IN. apply filter_In in IN. destruct IN as [IP HR]. pose proof (reaches_first _ _ _ _ HR) as H0. apply reaches_goal in HR.
  assert (PP : pixel shape p) by (apply zrange_In; exact IP).
  rewrite phase_centre in H0; auto; [|intros t [<-|[<-|[<-|[]]]]; reflexivity].
  unfold in_phase in HR. apply existsb_exists in HR. destruct HR as (q & IQ & HQ). apply andb_true_iff in HQ. destruct HQ as [HM HQ].
  apply in_map_iff. exists (p, q). split; auto. apply filter_In. split.
  - unfold pairs. apply filter_In. split; [apply in_prod; auto|exact HM].
  - unfold both. cbn [fst snd]. rewrite H0, HQ. reflexivity.
Qed.

Lemma pairs_le : forall per roi shape r, shapes per roi shape -> pixel roi r -> lenZ (pairs per (three shape) (offset (three roi) r)) <= zprod shape.
Proof.
  intros per roi shape r HS Hr. assert (Q : (zq (lenZ (pairs per (three shape) (offset (three roi) r))) <= zq (zprod shape))%Qc).
  { rewrite <- sum_one, <- (pairs3 per roi shape HS r _ Hr). destruct (shapes_dims3 _ _ _ HS) as (n0 & n1 & n2 & k0 & k1 & k2 & HD). destruct HD as [HL H3 HN HK PN PK HF].
    unfold pixel in Hr. rewrite (shape3_prod _ _ _ _ HK) in Hr. rewrite (sum_pairs per shape roi n0 n1 n2 k0 k1 k2) by (auto; lia).
    replace (zq (zprod shape)) with (sum_over (zrange 0 (n0 * n1 * n2)) (fun _ => 1%Qc)).
    - apply sum_le. intros p _. destruct (partner _ _ _ _ _ _ _ _); [apply Qcle_refl|exact Qc01].
    - rewrite sum_one. f_equal. rewrite (shape3_prod _ _ _ _ HN). unfold lenZ. rewrite zrange_length. nia. }
  destruct (Z_le_gt_dec (lenZ (pairs per (three shape) (offset (three roi) r))) (zprod shape)); auto. exfalso.
  apply (Qcle_not_lt _ _ Q). apply zq_lt. lia.
Qed.

(** ** Fractions *)

Lemma div_le : forall a b c d, 0 < b -> 0 < d -> a * d <= c * b -> (zq a / zq b <= zq c / zq d)%Qc.
Proof.
  intros a b c d Hb Hd H. unfold Qcle, Qcdiv. cbn [this Qcmult Qcinv Q2Qc]. rewrite !Qred_correct.
  rewrite <- (Zle_Qle) || idtac.
  unfold zq. cbn [this Q2Qc]. rewrite !Qred_correct. fold (inject_Z a / inject_Z b)%Q. fold (inject_Z c / inject_Z d)%Q.
  apply Qle_shift_div_l; [rewrite <- (Zlt_Qlt 0); auto|].
  setoid_replace (inject_Z a / inject_Z b * inject_Z d)%Q with (inject_Z a * inject_Z d / inject_Z b)%Q by (unfold Qdiv; ring).
  apply Qle_shift_div_r; [rewrite <- (Zlt_Qlt 0); auto|]. rewrite <- !inject_Z_mult, <- Zle_Qle. exact H.
Qed.

Lemma quotient_zq : forall a b, quotient (zq a) (zq b) = if b =? 0 then 0%Qc else (zq a / zq b)%Qc.
Proof.
  intros a b. unfold quotient. destruct (b =? 0) eqn:E.
  - apply Z.eqb_eq in E. subst b. rewrite (proj2 (Qceq_b_iff (zq 0) 0%Qc) zq_0). reflexivity.
  - destruct (Qceq_b (zq b) 0) eqn:E'; auto. apply Qceq_b_iff in E'. rewrite <- zq_0 in E'. apply zq_inj in E'. apply Z.eqb_neq in E. lia.
Qed.

Lemma quotient_safe : forall a b, 0 <= b -> (b = 0 -> a = 0) -> (zq a / safe (zq b))%Qc = quotient (zq a) (zq b).
Proof.
  intros a b Hb H0. rewrite quotient_zq. destruct (b =? 0) eqn:E.
  - apply Z.eqb_eq in E. rewrite (H0 E), zq_0. unfold Qcdiv. ring.
  - apply Z.eqb_neq in E. rewrite safe_pos; auto. rewrite <- zq_0. apply zq_lt. lia.
Qed.

(** ** L is at most S2 *)

Lemma S2_indicator : forall asrt per var roi shape f, shapes per roi shape -> is_image shape f ->
  exists e, fresh asrt roi per var (CallS2 (indicator f) (indicator f) None) = Ok e /\
    forall r, pixel roi r ->
      first_at e r = zq (lenZ (filter (both (i_vals f)) (pairs per (three shape) (offset (three roi) r)))) /\
      norm_at e r = zq (lenZ (pairs per (three shape) (offset (three roi) r))) /\
      result_at e r = Exact (quotient (first_at e r) (norm_at e r)).
Proof.
  intros asrt per var roi shape f HS Hf. pose proof (each_image _ _ (fun x => if x =? 0 then 0%Qc else 1%Qc) shape f Hf) as Hi. fold (indicator f) in Hi.
  destruct (S2_any asrt per var roi shape (indicator f) (indicator f) None HS Hi Hi I) as (e & E & _ & V).
  exists e. split; auto. intros r Hr. destruct (V r Hr) as (V1 & _ & V3 & V4). clear V.
  assert (HN : Forall (fun n => 1 <= n) shape) by apply HS.
  cbv zeta in V1, V3. cbn [mask2 fst snd zeros i_vals] in V1, V3. rewrite seen_zeros in V1, V3. rewrite V4. clear V4.
  assert (W1 : first_at e r = zq (lenZ (filter (both (i_vals f)) (pairs per (three shape) (offset (three roi) r))))).
  { rewrite V1, (pairs3 per roi shape HS r _ Hr). rewrite <- sum_one, sum_filter. apply sum_ext. intros [p q] IN. unfold pairs in IN. apply filter_In in IN. destruct IN as [IN _].
    apply in_prod_iff in IN. destruct IN as [IP IQ]. unfold pixels in IP, IQ. rewrite zprod3 in IP, IQ by apply HS. apply zrange_In in IP, IQ.
    cbn [fst snd]. rewrite !(indicator_qn shape f) by (auto; exact IP || exact IQ). unfold both. cbn [fst snd]. destruct (zn (i_vals f) p =? 0), (zn (i_vals f) q =? 0); cbn [negb andb]; ring. }
  assert (W3 : norm_at e r = zq (lenZ (pairs per (three shape) (offset (three roi) r)))).
  { rewrite V3, (pairs3 per roi shape HS r _ Hr). apply sum_one. }
  split; auto. split; auto. f_equal. rewrite W1, W3. apply quotient_safe; [apply lenZ_nonneg|].
  intros Z0. pose proof (lenZ_nonneg _ (filter (both (i_vals f)) (pairs per (three shape) (offset (three roi) r)))).
  pose proof (filter_len_le _ (both (i_vals f)) (pairs per (three shape) (offset (three roi) r))) as FL. unfold lenZ in *. lia.
Qed.

Lemma L_below : forall asrt per var roi shape f mode, shapes per roi shape -> is_image shape f -> walkable mode roi ->
  exists e e', fresh asrt roi per var (CallL f mode) = Ok e /\
    fresh asrt roi per var (CallS2 (indicator f) (indicator f) None) = Ok e' /\
    forall r, pixel roi r -> exists l s, result_at e r = Exact l /\ result_at e' r = Exact s /\
      (0 <= l)%Qc /\ (l <= s)%Qc /\ (l <= phase_fraction shape (i_vals f))%Qc.
Proof.
  intros asrt per var roi shape f mode HS Hf W. destruct (L_counts_all per roi shape mode HS W) as (paths & HP & HA).
  destruct (HA asrt var f Hf) as (e & E & _ & V). destruct (S2_indicator asrt per var roi shape f HS Hf) as (e' & E' & V').
  exists e, e'. split; auto. split; auto. intros r Hr. destruct (V r Hr) as (A & B & C). destruct (V' r Hr) as (A' & B' & C'). clear V V' HA.
  rewrite C, C', A, B, A', B'. clear A B C A' B' C'. do 2 eexists. split; [reflexivity|]. split; [reflexivity|].
  split; [apply quotient_nonneg; [apply zq_nonneg|]; apply lenZ_nonneg|].
  assert (H3 : (length shape <= 3)%nat) by apply HS. assert (HN : Forall (fun n => 1 <= n) shape) by apply HS.
  set (d := offset (three roi) r). set (c := lenZ (filter (visits d) paths)). set (N := zprod shape).
  set (s := lenZ (filter (both (i_vals f)) (pairs per (three shape) d))). set (n := lenZ (pairs per (three shape) d)).
  set (m := lenZ (filter (fun p => negb (zn (i_vals f) p =? 0)) (pixels shape))).
  set (a := lenZ (filter _ _)).
  assert (HB : lenZ (filter (fun walk : list (list Z) * Z => visits d (fst walk)) (list_prod paths (pixels shape))) = c * N).
  { rewrite count_through. unfold c, pixels, N. f_equal. unfold lenZ. rewrite zrange_length. assert (0 <= zprod shape) by (clear -HN; induction HN as [|x l Hx HN IH]; cbn [zprod]; nia). lia. }
  rewrite HB. clear HB.
  assert (PX : pixels shape = pixels (three shape)) by (unfold pixels; rewrite zprod3; auto).
  assert (c0 : 0 <= c) by apply lenZ_nonneg. assert (s0 : 0 <= s) by apply lenZ_nonneg. assert (n0 : 0 <= n) by apply lenZ_nonneg. assert (m0 : 0 <= m) by apply lenZ_nonneg. assert (a0 : 0 <= a) by apply lenZ_nonneg.
  assert (N0 : 1 <= N) by (unfold N; clear -HN; induction HN as [|x l Hx HN IH]; cbn [zprod]; nia).
  assert (sn : s <= n) by apply filter_len_le. assert (nN : n <= N) by (apply pairs_le; auto).
  assert (AS : a <= c * s).
  { unfold a, c. apply count_walks; auto; [intros x y; apply reaches_visits|]. intros rows IR. destruct (paths_head _ _ _ HP rows IR) as (rest & ->). cbn [fst snd]. rewrite PX.
    apply one_path_below; [apply three_pos; auto|apply three_length; auto]. }
  assert (AM : a <= c * m).
  { unfold a, c. apply count_walks; auto; [intros x y; apply reaches_visits|]. intros rows IR. destruct (paths_head _ _ _ HP rows IR) as (rest & ->). cbn [fst snd]. unfold m. rewrite PX.
    apply filter_le_in. intros p IN HR. apply reaches_first in HR. rewrite phase_centre in HR; auto; [apply three_pos; auto|apply zrange_In; exact IN|intros t [<-|[<-|[<-|[]]]]; reflexivity|rewrite three_length; auto]. }
  rewrite !quotient_zq. unfold phase_fraction. fold m N.
  assert (G0 : forall x y, 0 <= x -> 0 < y -> (0 <= zq x / zq y)%Qc).
  { intros x y Hx Hy. replace 0%Qc with (zq 0 / zq y)%Qc by (rewrite zq_0; unfold Qcdiv; ring). apply div_le; lia. }
  destruct (c * N =? 0) eqn:EB.
  - split; [|apply G0; lia]. destruct (n =? 0) eqn:EN; [apply Qcle_refl|]. apply Z.eqb_neq in EN. apply G0; lia.
  - apply Z.eqb_neq in EB. split.
    + destruct (n =? 0) eqn:EN.
      * apply Z.eqb_eq in EN. assert (a = 0) by nia. rewrite H, zq_0. unfold Qcdiv. rewrite Qcmult_0_l. apply Qcle_refl.
      * apply Z.eqb_neq in EN. apply div_le; nia.
    + apply div_le; nia.
Qed.
