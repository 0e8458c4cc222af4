(** * LinealClusters: a stretch of face-connected pixels lies in one cluster (proofs only) *)

From Coq Require Import ZArith QArith Qcanon List Bool Lia.
From Verif Require Import Base BaseLemmas Cluster SpecCluster ClusterGeom ClusterMain KernelProofs ClusterTop Array3 Array3Lemmas Path SpecPath PathTop SpecDilate DilateTop
  Ensemble SpecEnsemble EnsembleSums EnsembleLin EnsembleWindow EnsembleTop EnsembleAdd EnsembleRun EnsembleL SpecSymmetry SpecMoved DerivedCluster DerivedDilate DerivedEnsemble SpecAlgebra DerivedAlgebra DerivedLineal.
Import ListNotations.
Open Scope Z_scope.

(** ** The rows of the full paths *)

Definition one_step (rows : list (list Z)) : Prop := exists x, length x = 3%nat /\ consecutive (one_closer x) rows.

Lemma full_rows : forall per roi shape n0 n1 n2 k0 k1 k2, dims3 per roi shape n0 n1 n2 k0 k1 k2 -> walkable full roi ->
  forall x, In x (edge [k0; k1; k2]) -> one_step (path_for k0 k1 k2 full x).
Proof.
  intros per roi shape n0 n1 n2 k0 k1 k2 HD W x IN. apply (walkable3 _ k0 k1 k2) in W; [|apply HD].
  unfold edge in IN. apply in_map_iff in IN. destruct IN as (r & <- & IN). apply filter_In in IN. destruct IN as [IN HB].
  unfold pixels in IN. apply zrange_In in IN. assert (Hr : 0 <= r < k0 * k1 * k2) by (cbn [zprod] in IN; lia). clear IN.
  pose proof (D_pk _ _ _ _ _ _ _ _ _ HD) as (K0 & K1 & K2).
  pose proof (border_nonzero _ _ _ _ _ _ _ _ _ HD) as NZ.
  destruct (offset_box _ _ _ _ _ _ _ _ _ HD r Hr) as (a & b & c & E & Ha & Hb & Hc).
  destruct (halves k0) as (?&?&?); [lia|]. destruct (halves k1) as (?&?&?); [lia|]. destruct (halves k2) as (?&?&?); [lia|].
  assert (B : (k0 - 1) / 2 <= k0 / 2 /\ (k1 - 1) / 2 <= k1 / 2 /\ (k2 - 1) / 2 <= k2 / 2) by (clear; Z.to_euclidean_division_equations; lia).
  assert (F : (Z.to_nat (manhattan [0; 0; 0]%Z [a; b; c]) < the_fuel k0 k1 k2)%nat) by (unfold the_fuel; cbn [manhattan]; lia).
  assert (TO : through_origin [0; 0; 0] [a; b; c]).
  { exists 0%Q. repeat constructor; intros _; rewrite Qmult_0_l; reflexivity. }
  specialize (NZ) with (r := r). rewrite E in NZ |- *.
  cbn [walkable] in W; repeat match goal with HF : Forall _ (_ :: _) |- _ => inversion HF; clear HF; subst end.
  destruct (full_from_origin (the_fuel k0 k1 k2) [0; 0; 0] [a; b; c]) as (rows & EP & PB & _); auto; [cbn; lia| | |lia|].
  { intros X. apply NZ; auto; lia. }
  { apply span3; Z.to_euclidean_division_equations; lia. }
  rewrite (path_for_eq _ _ _ _ _ rows EP). exists [a; b; c]. split; auto. apply PB.
Qed.

Lemma L_counts_full : forall per roi shape, shapes per roi shape -> walkable full roi ->
  exists paths, (forall rows, In rows paths -> one_step rows /\ exists rest, rows = [0; 0; 0] :: rest) /\
  forall asrt var f, is_image shape f ->
  exists e, fresh asrt roi per var (CallL f full) = Ok e /\
    forall r, pixel roi r ->
      let d := offset (three roi) r in
      let walks := list_prod paths (pixels shape) in
      let free := fun walk : list (list Z) * Z => SpecEnsemble.reaches (in_phase per (three shape) (i_vals f) (snd walk)) d (fst walk) in
      let through := fun walk : list (list Z) * Z => visits d (fst walk) in
      first_at e r = zq (lenZ (filter free walks)) /\
      norm_at e r = zq (lenZ (filter through walks)) /\
      result_at e r = Exact (quotient (first_at e r) (norm_at e r)).
Proof.
  intros per roi shape HS W. destruct (shapes_dims3 _ _ _ HS) as (n0 & n1 & n2 & k0 & k1 & k2 & HD).
  rewrite (three_eq roi k0 k1 k2), (three_eq shape n0 n1 n2) by apply HD.
  pose proof (paths_exist _ _ _ _ _ _ _ _ _ full HD W) as PE. pose proof (full_rows _ _ _ _ _ _ _ _ _ HD W) as PR.
  exists (map (path_for k0 k1 k2 full) (edge [k0; k1; k2])). split.
  { intros rows IN. apply in_map_iff in IN. destruct IN as (x & <- & IN). split; auto. destruct (PE x IN) as [_ (G & _)].
    destruct (path_for k0 k1 k2 full x) as [|y rest]; [discriminate|]. cbn in G. inversion G. eauto. }
  intros asrt var f Hf.
  destruct (L_exact asrt per var _ _ _ _ _ _ _ _ HD f full Hf PE) as (e & H1 & H2 & H3 & H4).
  exists e. split; [exact H1|exact H4].
Qed.

(** ** One step of a path is a step to a face neighbour *)

Lemma moved_face : forall per shape g a x y b c, Forall (fun n => 1 <= n) shape -> inside shape b -> inside shape c ->
  moved per shape a x b -> moved per shape a y c -> one_closer g x y -> face per shape b c.
Proof.
  intros per. induction shape as [|n shape IH]; intros g a x y b c HP Hb Hc Mb Mc H1.
  - destruct a, x, b; try contradiction. destruct g; contradiction.
  - destruct a as [|a0 a], x as [|x0 x], b as [|b0 b]; try contradiction. destruct y as [|y0 y], c as [|c0 c]; try contradiction. destruct g as [|g0 g]; [contradiction|].
    cbn [moved] in Mb, Mc. destruct Mb as [B1 B2]. destruct Mc as [C1 C2]. destruct Hb as [I1 I2]. destruct Hc as [J1 J2]. inversion HP as [|? ? P1 P2]; subst.
    cbn [one_closer] in H1. cbn [face]. destruct H1 as [[E H1]|(N & E & ->)].
    + left. split; [destruct per; congruence|]. eapply IH; eauto.
    + right. assert (EQ : b = c).
      { clear -B2 C2. revert a y b c B2 C2. induction shape as [|m shape IH]; intros [|u a] [|v y] [|w b] [|z c] B2 C2; cbn in *; auto; try contradiction.
        destruct B2, C2. f_equal; [destruct per; congruence|eauto]. }
      split; auto. assert (S : Z.sgn (g0 - x0) = 1 \/ Z.sgn (g0 - x0) = -1) by lia.
      destruct per; subst b0 c0 y0.
      * rewrite Zplus_mod_idemp_l, Zminus_mod_idemp_l. destruct S as [->| ->]; [left|right]; f_equal; lia.
      * destruct S as [->| ->]; [left|right]; lia.
Qed.

(** A face neighbour in the image padded to three axes is the pixel itself or a face
    neighbour in the image. *)
Lemma face_three : forall per shape p q, (length shape <= 3)%nat -> Forall (fun n => 1 <= n) shape -> pixel shape p -> pixel shape q ->
  face per (three shape) (coords (three shape) p) (coords (three shape) q) -> p = q \/ face_neighbour per shape p q.
Proof.
  intros per shape p q HL HP Hp Hq H. assert (G : p = q \/ face per shape (coords shape p) (coords shape q)); [|unfold face_neighbour; tauto].
  unfold pixel in *. destruct shape as [|a [|b [|c [|d s]]]]; [| | |right; exact H|cbn in HL; lia];
    repeat match goal with HF : Forall _ (_ :: _) |- _ => inversion HF; clear HF; subst end; cbn [three coords zprod face] in *; rewrite ?Z.mul_1_r, ?Z.div_1_r, ?Z.mod_1_r in *.
  - left. lia.
  - rewrite !(Z.div_small p), !(Z.div_small q), !(Z.mod_small p), !(Z.mod_small q) in H by lia. destruct H as [[_ [[H _]|[H _]]]|[_ H]].
    + left; auto.
    + right. right. auto.
    + left. congruence.
  - assert (D : forall x y, x / b = y / b -> x mod b = y mod b -> x = y) by (intros x y X Y; rewrite (Z.div_mod x b), (Z.div_mod y b) by lia; congruence).
    destruct H as [[Q1 [[Q2 _]|[Q2 _]]]|[Q1 Q2]].
    + left. auto.
    + right. left. auto.
    + right. right. injection Q2 as Q2. split; auto. congruence.
Qed.

(** The same for steps of at most one pixel along every axis. *)
Definition small (d : list Z) : Prop := Forall (fun x => -1 <= x <= 1) d.

Lemma moved_between : forall per shape g a x y b c, moved per shape a x b -> moved per shape a y c -> closer g x y ->
  exists d, small d /\ moved per shape b d c.
Proof.
  intros per. induction shape as [|n shape IH]; intros g a x y b c Mb Mc H1.
  - destruct a, x, b; try contradiction. destruct y, c; try contradiction. exists []. split; [constructor|exact I].
  - destruct a as [|a0 a], x as [|x0 x], b as [|b0 b]; try contradiction. destruct y as [|y0 y], c as [|c0 c]; try contradiction. destruct g as [|g0 g]; [contradiction|].
    cbn [moved] in Mb, Mc. destruct Mb as [B1 B2]. destruct Mc as [C1 C2]. cbn [closer] in H1. destruct H1 as [H0 H1].
    destruct (IH g a x y b c B2 C2 H1) as (d & Sd & Md). exists (y0 - x0 :: d). split.
    + constructor; auto. destruct H0 as [->|[N ->]]; [lia|]. assert (Z.sgn (g0 - x0) = 1 \/ Z.sgn (g0 - x0) = -1) by lia. lia.
    + cbn [moved]. split; auto. destruct per; subst b0 c0; [rewrite Zplus_mod_idemp_l; f_equal; lia|lia].
Qed.

Lemma small_three : forall per shape p q d, (length shape <= 3)%nat -> Forall (fun n => 1 <= n) shape -> pixel shape p -> pixel shape q -> small d ->
  moved per (three shape) (coords (three shape) p) d (coords (three shape) q) ->
  exists d', length d' = length shape /\ small d' /\ moved per shape (coords shape p) d' (coords shape q).
Proof.
  intros per shape p q d HL HP Hp Hq Sd H. unfold pixel in *. destruct shape as [|a [|b [|c [|e s]]]]; [| | | |cbn in HL; lia];
    repeat match goal with HF : Forall _ (_ :: _) |- _ => inversion HF; clear HF; subst end; cbn [three coords zprod] in *;
    destruct d as [|d0 [|d1 [|d2 [|d3 d]]]]; cbn [moved] in H; try (exfalso; tauto); rewrite ?Z.mul_1_r, ?Z.div_1_r, ?Z.mod_1_r in *;
    unfold small in *; repeat match goal with HF : Forall _ (_ :: _) |- _ => inversion HF; clear HF; subst end.
  - exists []. cbn. auto.
  - rewrite !(Z.mod_small p), !(Z.mod_small q) in H by lia. exists [d1]. split; [reflexivity|]. split; [repeat constructor; lia|]. cbn [moved]. tauto.
  - exists [d0; d1]. split; [reflexivity|]. split; [repeat constructor; lia|]. cbn [moved]. tauto.
  - exists [d0; d1; d2]. split; [reflexivity|]. split; [repeat constructor; lia|]. cbn [moved]. tauto.
Qed.

(** ** Along a path *)

(** What one step of a path means for the pixels it passes, seen from any pixel. *)
Definition stepping (per : bool) (shape : list Z) (adj : Z -> Z -> Prop) (rows : list (list Z)) : Prop :=
  consecutive (fun x y => forall a b c, pixel shape b -> pixel shape c ->
    moved per (three shape) a x (coords (three shape) b) -> moved per (three shape) a y (coords (three shape) c) -> b = c \/ adj b c) rows.

Lemma consecutive_impl : forall (R S : list Z -> list Z -> Prop) l, (forall x y, R x y -> S x y) -> consecutive R l -> consecutive S l.
Proof. intros R S l H. induction l as [|x [|y l] IH]; auto. intros [H1 H2]. split; auto. Qed.

Lemma one_step_stepping : forall per shape rows, (length shape <= 3)%nat -> Forall (fun n => 1 <= n) shape -> one_step rows ->
  stepping per shape (face_neighbour per shape) rows.
Proof.
  intros per shape rows HL HP (g & _ & HC). unfold stepping. eapply consecutive_impl; [|exact HC]. cbv beta. intros x y H1 a b c Hb Hc Mb Mc.
  pose proof (three_pos _ HP) as HP3. assert (P0 : Forall (fun n => 0 < n) (three shape)) by (eapply Forall_impl; [|exact HP3]; intros; simpl in *; lia).
  assert (IN : forall z, pixel shape z -> inside (three shape) (coords (three shape) z)) by (intros z Hz; apply coords_inside; auto; unfold pixel; rewrite zprod3; auto).
  apply face_three; auto. eapply moved_face; eauto.
Qed.

Lemma some_step_stepping : forall per shape ks kv g rows, (length shape <= 3)%nat -> Forall (fun n => 1 <= n) shape ->
  (forall d, length d = length shape -> small d -> set_offset ks kv d) -> consecutive (some_closer g) rows ->
  stepping per shape (kernel_neighbour per shape ks kv) rows.
Proof.
  intros per shape ks kv g rows HL HP HK HC. unfold stepping. eapply consecutive_impl; [|exact HC]. cbv beta. intros x y [H1 _] a b c Hb Hc Mb Mc. right.
  destruct (moved_between _ _ _ _ _ _ _ _ Mb Mc H1) as (d & Sd & Md). destruct (small_three per shape b c d HL HP Hb Hc Sd Md) as (d' & L' & S' & M').
  split; auto. split; auto. exists d'. auto.
Qed.

Lemma reaches_linked : forall per shape adj f p d rows x, (length shape <= 3)%nat ->
  stepping per shape adj (x :: rows) -> SpecEnsemble.reaches (in_phase per (three shape) f p) d (x :: rows) = true ->
  exists b c, moved per (three shape) (coords (three shape) p) x (coords (three shape) b) /\
    moved per (three shape) (coords (three shape) p) d (coords (three shape) c) /\
    linked adj (fun y => pixel shape y /\ zn f y <> 0) b c.
Proof.
  intros per shape adj f p d rows x HL. revert x.
  assert (HV : forall x, in_phase per (three shape) f p x = true ->
    exists b, pixel shape b /\ zn f b <> 0 /\ moved per (three shape) (coords (three shape) p) x (coords (three shape) b)).
  { intros x H. unfold in_phase in H. apply existsb_exists in H. destruct H as (b & IB & H). apply andb_true_iff in H. destruct H as [H1 H2].
    apply movedb_iff in H1. apply negb_true_iff, Z.eqb_neq in H2. unfold pixels in IB. rewrite zprod3 in IB by auto. apply zrange_In in IB. exists b. auto. }
  induction rows as [|y rows IH]; intros x HC HR; cbn [SpecEnsemble.reaches] in HR; apply andb_true_iff in HR; destruct HR as [HG HR]; apply orb_true_iff in HR;
    destruct (HV x HG) as (b & Pb & Nb & Mb); (destruct HR as [HR|HR]; [apply same_offset_iff in HR; subst d; exists b, b; split; auto; split; auto; constructor; auto|]); [discriminate|].
  destruct HC as [HC1 HC2]. destruct (IH y HC2 HR) as (b' & c & Mb' & Mc & LK). exists b, c. split; auto. split; auto.
  assert (Pb' : pixel shape b') by (inversion LK; tauto).
  destruct (HC1 _ b b' Pb Pb' Mb Mb') as [->|FN]; auto.
  econstructor; [split; auto|exact FN|exact LK].
Qed.

Lemma one_path_in_cluster : forall per shape adj f lab d rest, (length shape <= 3)%nat -> Forall (fun n => 1 <= n) shape ->
  (forall p, pixel shape p -> (zn lab p = 0 <-> zn f p = 0)) ->
  (forall p q, pixel shape p -> pixel shape q -> zn f p <> 0 -> zn f q <> 0 ->
    (zn lab p = zn lab q <-> linked adj (fun x => pixel shape x /\ zn f x <> 0) p q)) ->
  stepping per shape adj ([0; 0; 0] :: rest) ->
  lenZ (filter (fun p => SpecEnsemble.reaches (in_phase per (three shape) f p) d ([0; 0; 0] :: rest)) (pixels shape)) <=
  lenZ (filter (same_label lab lab) (pairs per (three shape) d)).
Proof.
  intros per shape adj f lab d rest HL HP HZ HS HC. unfold lenZ. apply inj_le.
  rewrite <- (map_length fst (filter (same_label lab lab) (pairs per (three shape) d))). apply NoDup_incl_length; [apply NoDup_filter; apply zrange_NoDup|].
  intros p IN. apply filter_In in IN. destruct IN as [IP HR]. assert (PP : pixel shape p) by (apply zrange_In; exact IP).
  assert (PT : forall z, pixel shape z -> pixel (three shape) z) by (unfold pixel; intros z Hz; rewrite zprod3; auto).
  pose proof (three_pos _ HP) as HP3. assert (P0 : Forall (fun n => 0 < n) (three shape)) by (eapply Forall_impl; [|exact HP3]; intros; simpl in *; lia).
  destruct (reaches_linked _ _ _ _ _ _ _ _ HL HC HR) as (b & c & Mb & Mc & LK).
  assert (Ab : pixel shape b /\ zn f b <> 0) by (inversion LK; auto).
  assert (Ac : pixel shape c /\ zn f c <> 0) by (clear -LK; induction LK; auto).
  assert (EB : p = b).
  { apply movedb_iff in Mb. apply (movedb_zero per (three shape)) in Mb; auto; [|intros t [<-|[<-|[<-|[]]]]; reflexivity|rewrite three_length; auto|apply coords_inside; auto; apply PT; tauto|apply coords_inside; auto; apply PT; tauto].
    apply (coords_inj (three shape)); auto. apply PT; tauto. }
  subst b. destruct Ab as [_ Np]. destruct Ac as [Pc Nc].
  apply in_map_iff. exists (p, c). split; auto. apply filter_In. split.
  - unfold pairs. apply filter_In. split; [apply in_prod; apply zrange_In; [apply PT in PP; exact PP|apply PT in Pc; exact Pc]|]. apply movedb_iff. exact Mc.
  - unfold same_label. cbn [fst snd]. apply andb_true_iff. split; [apply negb_true_iff, Z.eqb_neq; rewrite HZ; auto|]. apply Z.eqb_eq. apply HS; auto.
Qed.

(** ** C2 of labels, by counting *)

Lemma C2_counts : forall asrt per var roi shape f, shapes per roi shape -> is_image shape f ->
  exists e, fresh asrt roi per var (CallC2 f f None) = Ok e /\
    forall r, pixel roi r ->
      first_at e r = zq (lenZ (filter (same_label (i_vals f) (i_vals f)) (pairs per (three shape) (offset (three roi) r)))) /\
      norm_at e r = zq (lenZ (pairs per (three shape) (offset (three roi) r))) /\
      result_at e r = Exact (quotient (first_at e r) (norm_at e r)).
Proof.
  intros asrt per var roi shape f HS Hf.
  destruct (C2_any asrt per var roi shape f f None HS Hf Hf I) as (e & E & _ & V).
  exists e. split; auto. intros r Hr. destruct (V r Hr) as (V1 & _ & V3 & V4). clear V.
  cbv zeta in V1, V3. cbn [mask2 fst snd zeros i_vals] in V1, V3. rewrite seen_zeros in V1, V3. rewrite V4. clear V4.
  assert (W1 : first_at e r = zq (lenZ (filter (same_label (i_vals f) (i_vals f)) (pairs per (three shape) (offset (three roi) r))))).
  { rewrite V1, (pairs3 per roi shape HS r _ Hr). rewrite <- sum_one, sum_filter. reflexivity. }
  assert (W3 : norm_at e r = zq (lenZ (pairs per (three shape) (offset (three roi) r)))).
  { rewrite V3, (pairs3 per roi shape HS r _ Hr). apply sum_one. }
  split; auto. split; auto. f_equal. rewrite W1, W3. apply quotient_safe; [apply lenZ_nonneg|].
  intros Z0. pose proof (lenZ_nonneg _ (filter (same_label (i_vals f) (i_vals f)) (pairs per (three shape) (offset (three roi) r)))).
  pose proof (filter_len_le _ (same_label (i_vals f) (i_vals f)) (pairs per (three shape) (offset (three roi) r))) as FL. unfold lenZ in *. lia.
Qed.

(** ** L is at most C2 *)

Lemma order_of_counts : forall per roi shape adj f lab paths r, shapes per roi shape -> pixel roi r ->
  (forall p, pixel shape p -> (zn lab p = 0 <-> zn f p = 0)) ->
  (forall p q, pixel shape p -> pixel shape q -> zn f p <> 0 -> zn f q <> 0 ->
    (zn lab p = zn lab q <-> linked adj (fun x => pixel shape x /\ zn f x <> 0) p q)) ->
  (forall rows, In rows paths -> stepping per shape adj rows /\ exists rest, rows = [0; 0; 0] :: rest) ->
  let d := offset (three roi) r in
  (quotient (zq (lenZ (filter (fun walk : list (list Z) * Z => SpecEnsemble.reaches (in_phase per (three shape) f (snd walk)) d (fst walk)) (list_prod paths (pixels shape)))))
            (zq (lenZ (filter (fun walk : list (list Z) * Z => visits d (fst walk)) (list_prod paths (pixels shape))))) <=
   quotient (zq (lenZ (filter (same_label lab lab) (pairs per (three shape) d)))) (zq (lenZ (pairs per (three shape) d))))%Qc.
Proof.
  intros per roi shape adj f lab paths r HS Hr LZ LS HP d.
  assert (H3 : (length shape <= 3)%nat) by apply HS. assert (HN : Forall (fun n => 1 <= n) shape) by apply HS.
  set (c := lenZ (filter (visits d) paths)). set (N := zprod shape).
  set (s := lenZ (filter (same_label lab lab) (pairs per (three shape) d))). set (n := lenZ (pairs per (three shape) d)).
  set (a := lenZ (filter (fun walk : list (list Z) * Z => SpecEnsemble.reaches _ _ _) _)).
  assert (N0 : 1 <= N) by (unfold N; clear -HN; induction HN as [|x l Hx HN IH]; cbn [zprod]; nia).
  assert (HB : lenZ (filter (fun walk : list (list Z) * Z => visits d (fst walk)) (list_prod paths (pixels shape))) = c * N).
  { rewrite count_through. unfold c, pixels. fold N. f_equal. unfold lenZ. rewrite zrange_length. lia. }
  rewrite HB. clear HB.
  assert (c0 : 0 <= c) by apply lenZ_nonneg. assert (s0 : 0 <= s) by apply lenZ_nonneg. assert (n0 : 0 <= n) by apply lenZ_nonneg. assert (a0 : 0 <= a) by apply lenZ_nonneg.
  assert (sn : s <= n) by apply filter_len_le. assert (nN : n <= N) by (apply pairs_le; auto).
  assert (AS : a <= c * s).
  { unfold a, c. apply count_walks; auto; [intros x y; apply reaches_visits|]. intros rows IR. destruct (HP rows IR) as (OS & rest & ->). cbn [fst snd].
    eapply one_path_in_cluster; eauto. }
  rewrite !quotient_zq.
  assert (G0 : forall x y, 0 <= x -> 0 < y -> (0 <= zq x / zq y)%Qc).
  { intros x y Hx Hy. replace 0%Qc with (zq 0 / zq y)%Qc by (rewrite zq_0; unfold Qcdiv; ring). apply div_le; lia. }
  destruct (c * N =? 0) eqn:EB.
  - destruct (n =? 0) eqn:EN; [apply Qcle_refl|]. apply Z.eqb_neq in EN. apply G0; lia.
  - apply Z.eqb_neq in EB. destruct (n =? 0) eqn:EN.
    + apply Z.eqb_eq in EN. assert (H : a = 0) by nia. rewrite H, zq_0. unfold Qcdiv. rewrite Qcmult_0_l. apply Qcle_refl.
    + apply Z.eqb_neq in EN. apply div_le; nia.
Qed.

Lemma L_below_C2 : forall asrt per var roi shape f, shapes per roi shape -> good_shape shape -> is_image shape f -> walkable full roi ->
  exists lab e e', clusters asrt shape (i_vals f) per = Ok lab /\
    fresh asrt roi per var (CallL f full) = Ok e /\
    fresh asrt roi per var (CallC2 (mkimg shape lab) (mkimg shape lab) None) = Ok e' /\
    forall r, pixel roi r -> exists l c, result_at e r = Exact l /\ result_at e' r = Exact c /\ (l <= c)%Qc.
Proof.
  intros asrt per var roi shape f HS HG Hf W.
  assert (H3 : (length shape <= 3)%nat) by apply HS. assert (HN : Forall (fun n => 1 <= n) shape) by apply HS.
  destruct (clusters_ok asrt shape (i_vals f) per HG H3 (proj2 Hf)) as (lab & EL & LL & LZ & LS & _).
  destruct (L_counts_full per roi shape HS W) as (paths & HP & HA).
  destruct (HA asrt var f Hf) as (e & E & V). destruct (C2_counts asrt per var roi shape (mkimg shape lab) HS (conj eq_refl LL)) as (e' & E' & V').
  exists lab, e, e'. split; auto. split; auto. split; auto. intros r Hr. destruct (V r Hr) as (A & B & C). destruct (V' r Hr) as (A' & B' & C').
  rewrite C, C', A, B, A', B'. do 2 eexists. split; [reflexivity|]. split; [reflexivity|]. cbn [i_vals].
  apply (order_of_counts per roi shape (face_neighbour per shape)); auto.
  intros rows IR. destruct (HP rows IR) as (OS & OH). split; auto. apply one_step_stepping; auto.
Qed.

Lemma paths_some : forall mode roi paths, paths_of mode roi paths -> forall rows, In rows paths -> exists x, consecutive (some_closer x) rows.
Proof.
  intros mode roi paths HP. unfold paths_of in HP. induction HP as [|x rows l l' (_ & _ & _ & HB) HP IH]; intros y IN; [destruct IN|]. destruct IN as [<-|IN]; eauto.
Qed.

Lemma L_below_C2_diagonal : forall asrt per var roi shape f mode ks kv, shapes per roi shape -> good_shape shape -> is_image shape f -> walkable mode roi ->
  good_kernel shape ks kv -> kernel_symmetric ks kv -> offsets_in_range per shape (set_offset ks kv) ->
  (forall d, length d = length shape -> Forall (fun x => -1 <= x <= 1) d -> set_offset ks kv d) ->
  exists g s outs e e', make_kernel asrt shape per ks kv = Ok g /\ Cluster.run asrt g [AddImage shape (i_vals f)] = Ok (s, outs) /\
    fresh asrt roi per var (CallL f mode) = Ok e /\
    fresh asrt roi per var (CallC2 (mkimg shape (c_label s)) (mkimg shape (c_label s)) None) = Ok e' /\
    forall r, pixel roi r -> exists l c, result_at e r = Exact l /\ result_at e' r = Exact c /\ (l <= c)%Qc.
Proof.
  intros asrt per var roi shape f mode ks kv HS HG Hf W HK HY HI HD.
  assert (H3 : (length shape <= 3)%nat) by apply HS. assert (HN : Forall (fun n => 1 <= n) shape) by apply HS.
  assert (HL : Forall (legal shape) [AddImage shape (i_vals f)]) by (constructor; [split; auto; apply Hf|constructor]).
  assert (AD : forall p, pixel shape p -> (added [AddImage shape (i_vals f)] p <-> zn (i_vals f) p <> 0)).
  { intros p Hp. cbn. unfold pixel in Hp. rewrite (proj2 Hf). unfold zn. tauto. }
  destruct (run_partition_kernel asrt shape per ks kv _ HG HK HY HI HL) as (g & s & outs & EM & ER & LS).
  destruct (make_kernel_ok asrt shape per ks kv HG HK) as (g' & EM' & Hwf & Es & _). rewrite EM in EM'. injection EM' as <-.
  destruct (run_support asrt g [AddImage shape (i_vals f)] Hwf) as (s' & outs' & ER' & LL & LZ); [rewrite Es; auto|].
  rewrite ER in ER'. injection ER' as <- <-. rewrite Es in LL, LZ.
  destruct (L_counts_all per roi shape mode HS W) as (paths & HP & HA).
  destruct (HA asrt var f Hf) as (e & E & _ & V). destruct (C2_counts asrt per var roi shape (mkimg shape (c_label s)) HS (conj eq_refl LL)) as (e' & E' & V').
  exists g, s, outs, e, e'. split; auto. split; auto. split; auto. split; auto. intros r Hr. destruct (V r Hr) as (A & B & C). destruct (V' r Hr) as (A' & B' & C').
  rewrite C, C', A, B, A', B'. do 2 eexists. split; [reflexivity|]. split; [reflexivity|]. cbn [i_vals].
  apply (order_of_counts per roi shape (kernel_neighbour per shape ks kv)); auto.
  - intros p Hp. pose proof (LZ p Hp) as Q1. rewrite (AD p Hp) in Q1. clear -Q1. unfold zn in *. lia.
  - intros p q Hp Hq Np Nq. rewrite LS by (auto; apply AD; auto).
    assert (MONO : forall (P Q : Z -> Prop) x y, (forall z, P z -> Q z) -> linked (kernel_neighbour per shape ks kv) P x y -> linked (kernel_neighbour per shape ks kv) Q x y).
    { intros P Q x y H LK. induction LK; econstructor; eauto. }
    split; apply MONO; intros z [Z1 Z2]; split; auto; apply AD in Z2 || apply AD; auto.
  - intros rows IR. split; [|eapply paths_head; eauto]. destruct (paths_some _ _ _ HP rows IR) as (x & HC). eapply some_step_stepping; eauto.
Qed.
