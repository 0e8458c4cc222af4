(** * LinealTop: monotonicity, uniform images and the one-dimensional lineal path function (proofs only) *)

From Coq Require Import ZArith QArith Qcanon List Bool Lia Permutation.
From Verif Require Import Base BaseLemmas SpecCluster ClusterGeom ClusterMain Array3 Array3Lemmas Path SpecPath SpecDilate DilateTop
  Ensemble SpecEnsemble EnsembleSums EnsembleLin EnsembleWindow EnsembleTop EnsembleL SpecSymmetry SpecMoved DerivedCluster DerivedDilate DerivedEnsemble SpecAlgebra DerivedAlgebra
  DerivedLineal SpecLineal LinealCover.
Import ListNotations.
Open Scope Z_scope.

Lemma image_count : forall shape, Forall (fun n => 1 <= n) shape -> 1 <= zprod shape /\ lenZ (pixels shape) = zprod shape.
Proof.
  intros shape HN. assert (H : 1 <= zprod shape) by (induction HN as [|x l Hx HN IH]; cbn [zprod]; nia). split; auto. unfold pixels, lenZ. rewrite zrange_length. lia.
Qed.

(** ** More foreground *)

Lemma quotient_mono : forall a a' b, 0 <= b -> a <= a' -> (quotient (zq a) (zq b) <= quotient (zq a') (zq b))%Qc.
Proof.
  intros a a' b Hb H. rewrite !quotient_zq. destruct (b =? 0) eqn:E; [apply Qcle_refl|]. apply Z.eqb_neq in E. apply div_le; try lia. nia.
Qed.

Lemma L_mono : forall asrt per var roi shape f f' mode, shapes per roi shape -> is_image shape f -> is_image shape f' -> walkable mode roi ->
  (forall p, pixel shape p -> zn (i_vals f) p <> 0 -> zn (i_vals f') p <> 0) ->
  exists e e', fresh asrt roi per var (CallL f mode) = Ok e /\ fresh asrt roi per var (CallL f' mode) = Ok e' /\
    forall r, pixel roi r -> norm_at e r = norm_at e' r /\ (first_at e r <= first_at e' r)%Qc /\
      exists l l', result_at e r = Exact l /\ result_at e' r = Exact l' /\ (l <= l')%Qc.
Proof.
  intros asrt per var roi shape f f' mode HS Hf Hf' W HI. destruct (L_counts_all per roi shape mode HS W) as (paths & HP & HA).
  destruct (HA asrt var f Hf) as (e & E & _ & V). destruct (HA asrt var f' Hf') as (e' & E' & _ & V'). exists e, e'. split; auto. split; auto.
  intros r Hr. destruct (V r Hr) as (A & B & C). destruct (V' r Hr) as (A' & B' & C'). clear V V' HA.
  assert (LE : lenZ (filter (fun walk : list (list Z) * Z => SpecEnsemble.reaches (in_phase per (three shape) (i_vals f) (snd walk)) (offset (three roi) r) (fst walk)) (list_prod paths (pixels shape))) <=
               lenZ (filter (fun walk : list (list Z) * Z => SpecEnsemble.reaches (in_phase per (three shape) (i_vals f') (snd walk)) (offset (three roi) r) (fst walk)) (list_prod paths (pixels shape)))).
  { apply filter_le. intros [rows p]. cbn [fst snd]. apply reaches_mono. intros x HX. unfold in_phase in *. apply existsb_exists in HX. destruct HX as (q & IQ & HQ).
    apply existsb_exists. exists q. split; auto. apply andb_true_iff in HQ. destruct HQ as [H1 H2]. apply andb_true_iff. split; auto.
    apply negb_true_iff, Z.eqb_neq. apply negb_true_iff, Z.eqb_neq in H2. apply HI; auto. unfold pixels in IQ. rewrite zprod3 in IQ by apply HS. apply zrange_In in IQ. exact IQ. }
  split; [congruence|]. split; [rewrite A, A'; apply zq_le; exact LE|]. do 2 eexists. split; [exact C|]. split; [exact C'|].
  rewrite A, A', B, B'. apply quotient_mono; auto. apply lenZ_nonneg.
Qed.

(** ** The normalisation is positive *)

Lemma L_norm : forall per roi shape mode, shapes per roi shape -> coverable mode roi -> (exists n, In n roi /\ 1 < n) ->
  forall asrt var f, is_image shape f -> exists e, fresh asrt roi per var (CallL f mode) = Ok e /\
    forall r, pixel roi r -> exists c, 1 <= c /\ norm_at e r = zq (c * zprod shape).
Proof.
  intros per roi shape mode HS HC HB asrt var f Hf. destruct (L_counts_all per roi shape mode HS (coverable_walkable _ _ HC)) as (paths & HP & HA).
  destruct (HA asrt var f Hf) as (e & E & _ & V). exists e. split; auto. intros r Hr. destruct (V r Hr) as (_ & B & _). clear V.
  exists (lenZ (filter (visits (offset (three roi) r)) paths)). split.
  - destruct (all_visited per roi shape mode paths HS HC HB HP r Hr) as (rows & IR & HV). assert (IF : In rows (filter (visits (offset (three roi) r)) paths)) by (apply filter_In; auto).
    destruct (filter _ paths); [destruct IF|]. rewrite lenZ_cons. pose proof (lenZ_nonneg _ l0). lia.
  - rewrite B. f_equal. rewrite count_through. f_equal. apply image_count. apply HS.
Qed.

(** ** A uniform periodic image *)

Lemma L_full : forall asrt var roi shape f mode, shapes true roi shape -> is_image shape f -> coverable mode roi -> (exists n, In n roi /\ 1 < n) ->
  (forall p, pixel shape p -> zn (i_vals f) p <> 0) ->
  exists e, fresh asrt roi true var (CallL f mode) = Ok e /\ forall r, pixel roi r -> result_at e r = Exact 1%Qc.
Proof.
  intros asrt var roi shape f mode HS Hf HC HB HI. destruct (L_counts_all true roi shape mode HS (coverable_walkable _ _ HC)) as (paths & HP & HA).
  destruct (HA asrt var f Hf) as (e & E & _ & V). exists e. split; auto. intros r Hr. destruct (V r Hr) as (A & B & C). clear V.
  destruct (L_norm true roi shape mode HS HC HB asrt var f Hf) as (e2 & E2 & N). rewrite E in E2. injection E2 as <-. destruct (N r Hr) as (c & Hc & Nc).
  assert (HN : Forall (fun n => 1 <= n) shape) by apply HS. destruct (image_count shape HN) as [Z1 _].
  assert (EQ : first_at e r = norm_at e r).
  { rewrite A, B. f_equal. f_equal. apply filter_ext_in. intros [rows p] IN. cbn [fst snd]. apply in_prod_iff in IN. destruct IN as [IR IP].
    apply reaches_always. intros x IX. assert (LX : length x = 3%nat).
    { clear -HP IR IX. unfold paths_of in HP. induction HP as [|y rows' l l' (_ & PB) HP IH]; [destruct IR|]. destruct IR as [->|IR]; auto. clear IH.
      destruct PB as (P1 & _ & P3). destruct rows as [|z rows]; [destruct IX|]. cbn in P1. injection P1 as ->. clear HP. assert (L0 : length [0; 0; 0] = 3%nat) by reflexivity.
      revert L0 P3 IX. generalize [0; 0; 0] as z. induction rows as [|w rows IH]; intros z LZ P3 IX; [destruct IX as [<-|[]]; auto|].
      destruct IX as [<-|IX]; auto. destruct P3 as [[PC _] P3]. apply (IH w); auto. apply PathTop.closer_length in PC. lia. }
    assert (HP3 : Forall (fun n => 0 < n) (three shape)) by (eapply Forall_impl; [|apply three_pos; exact HN]; intros; cbn beta in *; lia).
    assert (L3 : length (three shape) = 3%nat) by (apply three_length; apply HS).
    unfold in_phase. apply existsb_exists. unfold pixels in IP. apply zrange_In in IP.
    assert (IP' : pixel (three shape) p) by (unfold pixel; rewrite zprod3 by apply HS; exact IP).
    destruct (moved_total (three shape) (coords (three shape) p) x) as (y & IY & MY); auto; [apply coords_inside; auto|congruence|].
    destruct (pixel_of_coords (three shape) y IY) as (q & IQ & EQ). exists q. split; [apply zrange_In; exact IQ|].
    apply andb_true_iff. split; [apply movedb_iff; rewrite EQ; exact MY|]. apply negb_true_iff, Z.eqb_neq. apply HI. unfold pixel in *. rewrite zprod3 in IQ by apply HS. exact IQ. }
  rewrite C, EQ, Nc. rewrite quotient_zq. assert (NZ : c * zprod shape <> 0) by nia. apply Z.eqb_neq in NZ. rewrite NZ. apply Z.eqb_neq in NZ. f_equal.
  unfold Qcdiv. apply Qcmult_inv_r. intros Q. rewrite <- zq_0 in Q. apply zq_inj in Q. lia.
Qed.

(** ** One dimension *)

Lemma forallb_app : forall (A : Type) (P : A -> bool) l m, forallb P (l ++ m) = forallb P l && forallb P m.
Proof. intros A P l m. induction l as [|x l IH]; auto. cbn [forallb app]. rewrite IH. apply andb_assoc. Qed.

Lemma step_1d : forall X s w, some_closer [0; X; 0] [0; s; 0] w -> s <> X /\ w = [0; s + Z.sgn (X - s); 0].
Proof.
  intros X s w [HC HN]. destruct w as [|a [|b [|c [|d w]]]]; cbn [closer] in HC; try tauto. destruct HC as (A & B & C & _).
  assert (a = 0) by lia. assert (c = 0) by lia. subst a c. destruct B as [->|[B ->]]; [congruence|]. split; [lia|reflexivity].
Qed.

Lemma walk_1d : forall good X t rows s, consecutive (some_closer [0; X; 0]) ([0; s; 0] :: rows) -> last ([0; s; 0] :: rows) [] = [0; X; 0] ->
  (s <= t <= X \/ X <= t <= s) ->
  SpecEnsemble.reaches good [0; t; 0] ([0; s; 0] :: rows) = forallb (fun i => good [0; i; 0]) (zrange (Z.min s t) (Z.max s t + 1)).
Proof.
  intros good X t. induction rows as [|w rows IH]; intros s HC HL HT.
  - cbn [last] in HL. injection HL as HL. assert (t = s) by lia. subst t. rewrite Z.min_id, Z.max_id, zrange_cons, zrange_nil by lia. cbn [SpecEnsemble.reaches forallb].
    rewrite (proj2 (same_offset_iff [0; s; 0] [0; s; 0]) eq_refl). reflexivity.
  - cbn [consecutive] in HC. destruct HC as [HW HC]. apply step_1d in HW. destruct HW as [NE ->]. change (last ([0; s + Z.sgn (X - s); 0] :: rows) [] = [0; X; 0]) in HL.
    cbn [SpecEnsemble.reaches]. destruct (Z.eq_dec t s) as [->|NT].
    + rewrite Z.min_id, Z.max_id, zrange_cons, zrange_nil by lia. rewrite (proj2 (same_offset_iff [0; s; 0] [0; s; 0]) eq_refl). reflexivity.
    + assert (SF : same_offset [0; t; 0] [0; s; 0] = false). { destruct (same_offset [0; t; 0] [0; s; 0]) eqn:E; auto. apply same_offset_iff in E. congruence. }
      rewrite SF. cbn [orb]. assert (ST : Z.sgn (X - s) = Z.sgn (t - s)) by (destruct HT; [rewrite !Z.sgn_pos by lia|rewrite !Z.sgn_neg by lia]; reflexivity).
      assert (HI := IH (s + Z.sgn (X - s)) HC HL). cbn [SpecEnsemble.reaches] in HI. rewrite HI; clear HI.
      * rewrite ST. destruct HT as [HT|HT].
        -- rewrite Z.sgn_pos by lia. rewrite !Z.min_l, !Z.max_r by lia. rewrite (zrange_cons s) by lia. reflexivity.
        -- rewrite Z.sgn_neg by lia. rewrite !Z.min_r, !Z.max_l by lia. rewrite (zrange_S t s) by lia. rewrite forallb_app. cbn [forallb]. rewrite andb_true_r, andb_comm. f_equal. f_equal. f_equal. lia.
      * rewrite ST. destruct HT as [HT|HT]; [left; rewrite Z.sgn_pos by lia; lia|right; rewrite Z.sgn_neg by lia; lia].
Qed.

Lemma visit_1d : forall X t rows s, consecutive (some_closer [0; X; 0]) ([0; s; 0] :: rows) -> last ([0; s; 0] :: rows) [] = [0; X; 0] ->
  visits [0; t; 0] ([0; s; 0] :: rows) = true -> (s <= t <= X \/ X <= t <= s).
Proof.
  intros X t. induction rows as [|w rows IH]; intros s HC HL HV.
  - cbn [last] in HL. injection HL as HL. unfold visits in HV. cbn [existsb] in HV. rewrite orb_false_r in HV. apply same_offset_iff in HV. injection HV as HV. lia.
  - cbn [consecutive] in HC. destruct HC as [HW HC]. apply step_1d in HW. destruct HW as [NE ->]. change (last ([0; s + Z.sgn (X - s); 0] :: rows) [] = [0; X; 0]) in HL.
    unfold visits in HV. cbn [existsb] in HV. apply orb_true_iff in HV. destruct HV as [HV|HV].
    + apply same_offset_iff in HV. injection HV as HV. lia.
    + apply (IH _ HC HL) in HV. destruct (Z.lt_trichotomy s X) as [L|[E|L]]; [rewrite Z.sgn_pos in HV by lia; lia|lia|rewrite Z.sgn_neg in HV by lia; lia].
Qed.

Lemma count_both : forall (A B : Type) (P : A * B -> bool) (V : A -> bool) (Q : B -> bool) (l : list A) (m : list B),
  (forall x y, In x l -> In y m -> P (x, y) = V x && Q y) -> lenZ (filter P (list_prod l m)) = lenZ (filter V l) * lenZ (filter Q m).
Proof.
  intros A B P V Q l m. induction l as [|x l IH]; intros H; [reflexivity|]. cbn [list_prod filter]. rewrite filter_app.
  assert (LA : forall (u v : list (A * B)), lenZ (u ++ v) = lenZ u + lenZ v) by (intros; unfold lenZ; rewrite app_length; lia).
  rewrite LA, IH by (intros; apply H; simpl; auto).
  assert (EM : lenZ (filter P (map (fun y => (x, y)) m)) = if V x then lenZ (filter Q m) else 0).
  { assert (H' : forall y, In y m -> P (x, y) = V x && Q y) by (intros; apply H; simpl; auto). unfold lenZ. clear -H'. induction m as [|y m IH]; [destruct (V x); reflexivity|].
    specialize (IH (fun z IN => H' z (or_intror IN))). cbn [map filter]. rewrite (H' y (or_introl eq_refl)). destruct (V x); cbn [andb]; auto. destruct (Q y); cbn [length]; lia. }
  rewrite EM. destruct (V x); [rewrite lenZ_cons|]; lia.
Qed.

Lemma phase_1d : forall per n f p i, 1 <= n -> 0 <= p < n -> in_phase per [1; n; 1] f p [0; i; 0] = open_at per n f (p + i).
Proof.
  intros per n f p i Hn Hp.
  assert (CO : forall q, 0 <= q < n -> coords [1; n; 1] q = [0; q; 0]).
  { intros q Hq. cbn [coords zprod]. rewrite !Z.mul_1_r, !Z.div_1_r, Z.mod_1_r, Z.div_small, Z.mod_small by lia. reflexivity. }
  assert (MV : forall q, 0 <= q < n -> movedb per [1; n; 1] (coords [1; n; 1] p) [0; i; 0] (coords [1; n; 1] q) = Z.eqb q (if per then (p + i) mod n else p + i)).
  { intros q Hq. rewrite !CO by lia. cbn [movedb]. destruct per; cbn; rewrite ?andb_true_r; reflexivity. }
  unfold in_phase, open_at. assert (PX : pixels [1; n; 1] = zrange 0 n) by (unfold pixels; f_equal; cbn [zprod]; lia). rewrite PX.
  apply eq_true_iff_eq. rewrite existsb_exists. split.
  - intros (q & IQ & HQ). apply zrange_In in IQ. rewrite MV in HQ by auto. apply andb_true_iff in HQ. destruct HQ as [E HQ]. apply Z.eqb_eq in E. destruct per.
    + rewrite <- E. exact HQ.
    + rewrite <- E, HQ. rewrite andb_true_r. apply andb_true_iff. split; [apply Z.leb_le|apply Z.ltb_lt]; lia.
  - intros HO. destruct per.
    + pose proof (Z.mod_pos_bound (p + i) n ltac:(lia)) as HM. exists ((p + i) mod n). rewrite zrange_In, MV by lia. rewrite Z.eqb_refl, HO. auto.
    + apply andb_true_iff in HO. destruct HO as [HO H2]. apply andb_true_iff in HO. destruct HO as [H0 H1]. apply Z.leb_le in H0. apply Z.ltb_lt in H1.
      exists (p + i). rewrite zrange_In, MV by lia. rewrite Z.eqb_refl, H2. auto.
Qed.

Lemma forallb_shift : forall (P : Z -> bool) a b c, forallb (fun i => P (c + i)) (zrange a b) = forallb P (zrange (c + a) (c + b)).
Proof.
  intros P a b c. apply eq_true_iff_eq. rewrite !forallb_forall. split; intros H i IN; apply zrange_In in IN.
  - replace i with (c + (i - c)) by lia. apply H. apply zrange_In. lia.
  - apply H. apply zrange_In. lia.
Qed.

Lemma L_1d_data : forall asrt per var k n f mode, shapes per [k] [n] -> is_image [n] f -> coverable mode [k] -> 1 < k ->
  exists e, fresh asrt [k] per var (CallL f mode) = Ok e /\
    forall r, 0 <= r < k -> exists c, 1 <= c /\
      first_at e r = zq (c * lenZ (filter (stretch per n (i_vals f) (r - (k - 1) / 2)) (zrange 0 n))) /\
      norm_at e r = zq (c * n) /\
      result_at e r = Exact (zq (lenZ (filter (stretch per n (i_vals f) (r - (k - 1) / 2)) (zrange 0 n))) / zq n)%Qc.
Proof.
  intros asrt per var k n f mode HS Hf HC Hk. destruct (L_counts_all per [k] [n] mode HS (coverable_walkable _ _ HC)) as (paths & HP & HA).
  destruct (HA asrt var f Hf) as (e & E & _ & V). exists e. split; auto. intros r Hr. assert (HrP : pixel [k] r) by (unfold pixel; cbn [zprod]; lia). destruct (V r HrP) as (A & B & C). clear V HA.
  assert (Hn : 1 <= n). { pose proof HS as (_ & _ & _ & HN & _). inversion HN; auto. }
  assert (OF : offset (three [k]) r = [0; r - (k - 1) / 2; 0]).
  { unfold offset, diff, anchor. cbn [three coords zprod map combine fst snd]. rewrite !Z.mul_1_r, !Z.div_1_r, !Z.mod_1_r. change ((1 - 1) / 2) with 0. rewrite Z.div_small, Z.mod_small by lia. f_equal. }
  destruct (all_visited per [k] [n] mode paths HS HC (ex_intro _ k (conj (or_introl eq_refl) Hk)) HP r HrP) as (rows0 & IR0 & HV0).
  rewrite OF in *. set (t := r - (k - 1) / 2) in *. cbn [three] in *.
  assert (PX : pixels [n] = zrange 0 n) by (unfold pixels; f_equal; cbn [zprod]; lia).
  assert (ED : forall x, In x (edge [1; k; 1]) -> exists X, x = [0; X; 0]).
  { intros x IN. unfold edge in IN. apply in_map_iff in IN. destruct IN as (r' & <- & IN). apply filter_In in IN. destruct IN as [IN _]. unfold pixels in IN. apply zrange_In in IN. cbn [zprod] in IN.
    unfold offset, diff, anchor. cbn [coords zprod map combine fst snd]. rewrite !Z.mul_1_r, !Z.div_1_r, !Z.mod_1_r. change ((1 - 1) / 2) with 0. rewrite Z.div_small by lia. eexists. reflexivity. }
  assert (PS : forall rows, In rows paths -> exists X rest, rows = [0; 0; 0] :: rest /\ consecutive (some_closer [0; X; 0]) ([0; 0; 0] :: rest) /\ last ([0; 0; 0] :: rest) [] = [0; X; 0]).
  { clear -HP ED. unfold paths_of in HP. remember (edge [1; k; 1]) as ed. clear Heqed. induction HP as [|x rows l l' (_ & PB) HP IH]; intros y IN; [destruct IN|]. destruct IN as [<-|IN]; [|apply IH; auto; intros; apply ED; right; auto].
    destruct (ED x (or_introl eq_refl)) as (X & ->). destruct PB as (P1 & P2 & P3). destruct rows as [|z rest]; [discriminate|]. cbn in P1. injection P1 as ->. exists X, rest. auto. }
  assert (CB : lenZ (filter (fun walk : list (list Z) * Z => SpecEnsemble.reaches (in_phase per [1; n; 1] (i_vals f) (snd walk)) [0; t; 0] (fst walk)) (list_prod paths (pixels [n])))
             = lenZ (filter (visits [0; t; 0]) paths) * lenZ (filter (stretch per n (i_vals f) t) (pixels [n]))).
  { apply count_both. intros rows p IR IP. cbn [fst snd]. rewrite PX in IP. apply zrange_In in IP. destruct (PS rows IR) as (X & rest & -> & P1 & P2).
    destruct (visits [0; t; 0] ([0; 0; 0] :: rest)) eqn:EV; cbn [andb].
    - pose proof (visit_1d _ _ _ _ P1 P2 EV) as HT. rewrite (walk_1d _ X t rest 0 P1 P2 HT). unfold stretch.
      replace (Z.min p (p + t)) with (p + Z.min 0 t) by lia. replace (Z.max p (p + t) + 1) with (p + (Z.max 0 t + 1)) by lia. rewrite <- forallb_shift.
      apply eq_true_iff_eq. rewrite !forallb_forall. split; intros H i IN; [rewrite <- phase_1d by lia|rewrite phase_1d by lia]; auto.
    - destruct (SpecEnsemble.reaches _ [0; t; 0] ([0; 0; 0] :: rest)) eqn:ER; auto. apply reaches_visits in ER. congruence. }
  rewrite CB in A. rewrite count_through in B. rewrite PX in A, B. assert (LN : lenZ (zrange 0 n) = n) by (unfold lenZ; rewrite zrange_length; lia). rewrite LN in B.
  set (c := lenZ (filter (visits [0; t; 0]) paths)) in *. exists c.
  assert (Hc : 1 <= c). { unfold c. assert (IF : In rows0 (filter (visits [0; t; 0]) paths)) by (apply filter_In; auto). destruct (filter _ paths); [destruct IF|]. rewrite lenZ_cons. pose proof (lenZ_nonneg _ l0). lia. }
  split; auto. split; auto. split; auto. rewrite C, A, B, quotient_zq. assert (NZ : c * n <> 0) by nia. apply Z.eqb_neq in NZ. rewrite NZ. f_equal. rewrite !zq_mult.
  assert (Qc0 : zq c <> 0%Qc) by (intros Q; rewrite <- zq_0 in Q; apply zq_inj in Q; lia). assert (Qn0 : zq n <> 0%Qc) by (intros Q; rewrite <- zq_0 in Q; apply zq_inj in Q; lia).
  field. auto.
Qed.

Lemma L_1d : forall asrt per var k n f mode, shapes per [k] [n] -> is_image [n] f -> coverable mode [k] -> 1 < k ->
  exists e, fresh asrt [k] per var (CallL f mode) = Ok e /\
    forall r, 0 <= r < k ->
      result_at e r = Exact (zq (lenZ (filter (stretch per n (i_vals f) (r - (k - 1) / 2)) (zrange 0 n))) / zq n)%Qc.
Proof.
  intros asrt per var k n f mode HS Hf HC Hk. destruct (L_1d_data asrt per var k n f mode HS Hf HC Hk) as (e & E & V).
  exists e. split; auto. intros r Hr. destruct (V r Hr) as (c & _ & _ & _ & V4). exact V4.
Qed.

Lemma stretch_shorter : forall per n f t t' p, 0 <= t <= t' \/ t' <= t <= 0 -> stretch per n f t' p = true -> stretch per n f t p = true.
Proof.
  intros per n f t t' p HT H. unfold stretch in *. rewrite forallb_forall in *. intros i IN. apply H. apply zrange_In. apply zrange_In in IN. lia.
Qed.

Lemma open_mod : forall n f x c, n <> 0 -> open_at true n f (x + c * n) = open_at true n f x.
Proof. intros n f x c Hn. unfold open_at. rewrite Z.mod_add by auto. reflexivity. Qed.

Lemma stretch_back : forall (per : bool) n f t p q, 1 <= n -> 0 <= p < n -> q = (if per then (p + t) mod n else p + t) -> stretch per n f t p = stretch per n f (- t) q.
Proof.
  intros per n f t p q Hn Hp ->. unfold stretch. destruct per.
  - set (c := (p + t) / n). assert (EM : (p + t) mod n = p + t + (- c) * n) by (pose proof (Z.div_mod (p + t) n ltac:(lia)); unfold c; lia). rewrite EM.
    apply eq_true_iff_eq. rewrite !forallb_forall. split; intros H i IN; apply zrange_In in IN.
    + rewrite <- (open_mod n f i c) by lia. apply H. apply zrange_In. lia.
    + rewrite <- (open_mod n f i (- c)) by lia. apply H. apply zrange_In. lia.
  - f_equal. replace (p + t + - t) with p by lia. f_equal; lia.
Qed.

Lemma stretch_count : forall per n f t, 1 <= n -> lenZ (filter (stretch per n f t) (zrange 0 n)) <= lenZ (filter (stretch per n f (- t)) (zrange 0 n)).
Proof.
  intros per n f t Hn. set (g := fun p => if per then (p + t) mod n else p + t). unfold lenZ. apply inj_le. rewrite <- (map_length g (filter (stretch per n f t) (zrange 0 n))).
  apply NoDup_incl_length.
  - assert (ND : NoDup (filter (stretch per n f t) (zrange 0 n))) by (apply NoDup_filter, zrange_NoDup).
    assert (IN : forall p, In p (filter (stretch per n f t) (zrange 0 n)) -> 0 <= p < n) by (intros p H; apply filter_In in H; destruct H as [H _]; apply zrange_In in H; exact H).
    revert ND IN. generalize (filter (stretch per n f t) (zrange 0 n)) as l. induction l as [|x l IH]; intros ND IN; cbn [map]; constructor.
    + intros H. apply in_map_iff in H. destruct H as (y & EY & IY). inversion ND as [|? ? NI ND']; subst. apply NI. assert (y = x); [|subst; auto].
      pose proof (IN x (or_introl eq_refl)). pose proof (IN y (or_intror IY)). unfold g in EY. destruct per; [|lia].
      pose proof (Z.div_mod (y + t) n ltac:(lia)). pose proof (Z.div_mod (x + t) n ltac:(lia)). rewrite EY in *.
      set (q1 := (y + t) / n) in *. set (q2 := (x + t) / n) in *. clearbody q1 q2. destruct (Z.lt_trichotomy q1 q2) as [L|[L|L]]; nia.
    + inversion ND; subst. apply IH; auto. intros; apply IN; right; auto.
  - intros q IQ. apply in_map_iff in IQ. destruct IQ as (p & <- & IP). apply filter_In in IP. destruct IP as [IP HS]. apply zrange_In in IP. apply filter_In.
    split; [|rewrite <- (stretch_back per n f t p (g p)); auto]. apply zrange_In. unfold g. destruct per; [apply Z.mod_pos_bound; lia|].
    unfold stretch in HS. rewrite forallb_forall in HS. assert (H := HS (p + t)). unfold open_at in H. rewrite zrange_In in H. specialize (H ltac:(lia)).
    apply andb_true_iff in H. destruct H as [H _]. apply andb_true_iff in H. destruct H as [H0 H1]. apply Z.leb_le in H0. apply Z.ltb_lt in H1. lia.
Qed.

Lemma L_1d_laws : forall asrt per var k n f mode, shapes per [k] [n] -> is_image [n] f -> coverable mode [k] -> 1 < k ->
  exists e, fresh asrt [k] per var (CallL f mode) = Ok e /\
    forall r r', 0 <= r < k -> 0 <= r' < k -> let t := r - (k - 1) / 2 in let t' := r' - (k - 1) / 2 in
      exists l l', result_at e r = Exact l /\ result_at e r' = Exact l' /\
        (0 <= t <= t' \/ t' <= t <= 0 -> (l' <= l)%Qc) /\ (t' = - t -> l' = l).
Proof.
  intros asrt per var k n f mode HS Hf HC Hk. destruct (L_1d asrt per var k n f mode HS Hf HC Hk) as (e & E & V). exists e. split; auto.
  assert (Hn : 1 <= n). { pose proof HS as (_ & _ & _ & HN & _). inversion HN; auto. }
  intros r r' Hr Hr'. cbv zeta. rewrite (V r Hr), (V r' Hr'). do 2 eexists. split; [reflexivity|]. split; [reflexivity|]. split.
  - intros HT. apply div_le; try lia. apply Z.mul_le_mono_nonneg_r; [lia|]. apply filter_le. intros p. apply stretch_shorter. exact HT.
  - intros ->. f_equal. f_equal. apply Z.le_antisymm; [|apply stretch_count; auto].
    etransitivity; [apply stretch_count; auto|]. rewrite Z.opp_involutive. lia.
Qed.

(** ** Refutations *)

Lemma L_full_open : exists roi shape f e, shapes false roi shape /\ is_image shape f /\ coverable Bresenham roi /\
  (forall p, pixel shape p -> zn (i_vals f) p <> 0) /\
  fresh true roi false true (CallL f Bresenham) = Ok e /\ exists r, pixel roi r /\ result_at e r <> Exact 1%Qc.
Proof.
  exists [3], [3], (mkimg [3] [1; 1; 1]).
  assert (HS : shapes false [3] [3]). { split; [reflexivity|]. split; [cbn; lia|]. split; [repeat constructor; lia|]. split; [repeat constructor; lia|]. discriminate. }
  assert (HI : is_image [3] (mkimg [3] [1; 1; 1])) by (split; reflexivity). assert (HC : coverable Bresenham [3]) by (repeat constructor; lia).
  destruct (L_1d true false true 3 3 (mkimg [3] [1; 1; 1]) Bresenham HS HI HC ltac:(lia)) as (e & E & V).
  exists e. split; auto. split; auto. split; auto. split.
  { unfold pixel. cbn [zprod]. intros p Hp. assert (p = 0 \/ p = 1 \/ p = 2) as [->|[->| ->]] by lia; discriminate. }
  split; auto. exists 2. split; [unfold pixel; cbn [zprod]; lia|]. rewrite (V 2 ltac:(lia)).
  intros Q. discriminate.
Qed.

Lemma L_not_even : exists roi shape f e r r', shapes true roi shape /\ is_image shape f /\ coverable Bresenham roi /\
  fresh true roi true true (CallL f Bresenham) = Ok e /\ pixel roi r /\ pixel roi r' /\ offset roi r' = opposite (offset roi r) /\ result_at e r' <> result_at e r.
Proof.
  exists [3; 5], [4; 6], (mkimg [4; 6] [1;0;0;0;0;0; 0;1;1;0;0;0; 0;0;0;0;0;0; 0;0;0;0;0;0]).
  assert (HS : shapes true [3; 5] [4; 6]). { split; [reflexivity|]. split; [cbn; lia|]. split; [repeat constructor; lia|]. split; [repeat constructor; lia|]. intros _. vm_compute. repeat split; discriminate. }
  eexists. exists 14, 0. split; [exact HS|]. split; [split; reflexivity|]. split; [repeat constructor; lia|]. split; [vm_compute; reflexivity|].
  split; [unfold pixel; cbn; lia|]. split; [unfold pixel; cbn; lia|]. split; [reflexivity|].
  vm_compute. intros Q. discriminate.
Qed.
