(** * PathTop: the path lemmas in the form of the properties (proofs only). *)

From Coq Require Import ZArith QArith Qabs List Bool Lia Lqa.
From Verif Require Import Base BaseLemmas Path SpecPath PathProofs LineProofs LineGeom.
Import ListNotations.
Open Scope Z_scope.

(** ** Bresenham *)

Lemma bresenham_connected : forall fuel x0 x1, (1 <= length x0 <= 3)%nat -> length x1 = length x0 -> x0 <> x1 ->
  span x0 x1 < 2 ^ 30 -> (Z.to_nat (span x0 x1) < fuel)%nat ->
  exists rows, path fuel x0 x1 Bresenham = Ok rows /\ path_between (some_closer x1) x0 x1 rows /\
    lenZ rows = span x0 x1 + 1.
Proof.
  intros. destruct (bresenham_path fuel x0 x1) as (rows & E & P & L & _); auto. exists rows. auto.
Qed.

Lemma touches_intro : forall t x0 x1 c, length x1 = length x0 -> length c = length x0 ->
  (forall i, 0 <= i < lenZ x0 -> (- (1 # 2) <= inject_Z (zn x0 i) + inject_Z (zn x1 i - zn x0 i) * t - inject_Z (zn c i) <= 1 # 2)%Q) ->
  touches x0 x1 t c.
Proof.
  intros t. induction x0 as [|a x0 IH]; intros [|b x1] [|n c] H1 H2 H; simpl in H1, H2; try discriminate; [exact I|].
  cbn [touches]. split.
  - apply (H 0). rewrite lenZ_cons. unfold lenZ; lia.
  - apply IH; [lia|lia|]. intros i Hi. specialize (H (i + 1)).
    assert (S : forall (y : Z) l, zn (y :: l) (i + 1) = zn l i).
    { intros. unfold zn. replace (Z.to_nat (i + 1)) with (S (Z.to_nat i)) by lia. reflexivity. }
    rewrite !S in H. apply H. rewrite lenZ_cons. lia.
Qed.

Lemma rows_length : forall (R : list Z -> list Z -> Prop) n rows, (forall x y, length x = n -> R x y -> length y = n) ->
  (forall x, hd_error rows = Some x -> length x = n) -> consecutive R rows -> forall r, In r rows -> length r = n.
Proof.
  intros R n rows HR. induction rows as [|x rows IH]; intros H0 HC r Hr; [destruct Hr|].
  assert (HX : length x = n) by (apply H0; reflexivity). destruct Hr as [<-|Hr]; [auto|].
  destruct rows as [|y rows]; [destruct Hr|]. destruct HC as [HC1 HC]. apply IH; auto.
  intros z E. injection E as <-. eapply HR; eauto.
Qed.

Lemma closer_length : forall g x y, closer g x y -> length y = length x.
Proof.
  induction g as [|a g IH]; intros [|b x] [|c y] H; simpl in H; try contradiction; auto.
  simpl. f_equal. apply IH. apply H.
Qed.

Lemma bresenham_half : forall fuel x0 x1, (1 <= length x0 <= 3)%nat -> length x1 = length x0 -> x0 <> x1 ->
  span x0 x1 < 2 ^ 30 -> (Z.to_nat (span x0 x1) < fuel)%nat ->
  exists rows, path fuel x0 x1 Bresenham = Ok rows /\
    forall k, 0 <= k <= span x0 x1 ->
      touches x0 x1 (inject_Z k / inject_Z (span x0 x1)) (nth (Z.to_nat k) rows []).
Proof.
  intros fuel x0 x1 HL HL' HN HS Hf. destruct (bresenham_path fuel x0 x1) as (rows & E & (P1 & P2 & P3) & L & H); auto.
  exists rows. split; auto. intros k Hk. pose proof (span_pos x0 x1 HL' HN) as HP.
  apply touches_intro; auto.
  - apply (rows_length (some_closer x1) (length x0) rows); auto.
    + intros x y Hx [Hc _]. apply closer_length in Hc. lia.
    + intros x Hx. rewrite P1 in Hx. injection Hx as <-. auto.
    + apply nth_In. unfold lenZ in L. lia.
  - intros i Hi. specialize (H k i Hk Hi). set (M := span x0 x1) in *. set (r := zn (nth (Z.to_nat k) rows []) i) in *.
    set (p := zn x0 i) in *. set (q := zn x1 i) in *.
    assert (HM : (0 < inject_Z M)%Q) by (change 0%Q with (inject_Z 0); rewrite <- Zlt_Qlt; lia).
    set (D := 2 * k * (q - p) - 2 * M * (r - p)).
    assert (ED : - M <= D <= M) by (unfold D; lia).
    assert (EQ : (inject_Z p + inject_Z (q - p) * (inject_Z k / inject_Z M) - inject_Z r == inject_Z D * / (2 * inject_Z M))%Q).
    { assert (EN : (inject_Z D == 2 * inject_Z k * inject_Z (q - p) - 2 * inject_Z M * (inject_Z r - inject_Z p))%Q).
      { unfold D. unfold Z.sub at 1. rewrite inject_Z_plus, inject_Z_opp, !inject_Z_mult. unfold Z.sub at 2.
        rewrite inject_Z_plus, inject_Z_opp. change (inject_Z 2) with 2%Q. ring. }
      rewrite EN. field. lra. }
    rewrite EQ. destruct ED as [E1 E2].
    assert (HI : (0 < / (2 * inject_Z M))%Q) by (apply Qinv_lt_0_compat; lra).
    assert (L1 : (inject_Z (- M) * / (2 * inject_Z M) <= inject_Z D * / (2 * inject_Z M))%Q) by (apply Qmult_le_compat_r; [rewrite <- Zle_Qle; lia|lra]).
    assert (L2 : (inject_Z D * / (2 * inject_Z M) <= inject_Z M * / (2 * inject_Z M))%Q) by (apply Qmult_le_compat_r; [rewrite <- Zle_Qle; lia|lra]).
    assert (EM : (inject_Z M * / (2 * inject_Z M) == 1 # 2)%Q) by (field; lra).
    rewrite inject_Z_opp in L1.
    assert (EM' : (- inject_Z M * / (2 * inject_Z M) == - (1 # 2))%Q) by (field; lra). lra.
Qed.

(** ** A point to itself *)

Lemma i32_0 : i32 0 = Ok 0. Proof. reflexivity. Qed.

Lemma bres_axis_same : forall x i a, tget x i = Ok a -> (i <? lenZ x) = true -> bres_axis x x i = Ok (0, 0, a).
Proof. intros x i a E L. unfold bres_axis. rewrite L, E, !bind_Ok, Z.sub_diag. reflexivity. Qed.

Lemma bres_same_3 : forall fuel a b c, path (S fuel) [a; b; c] [a; b; c] Bresenham = Ok [[a; b; c]].
Proof.
  intros. cbn [path]. unfold bresenham.
  rewrite (bres_axis_same [a; b; c] 0 a), (bres_axis_same [a; b; c] 1 b), (bres_axis_same [a; b; c] 2 c) by reflexivity.
  change (3 <? lenZ [a; b; c]) with false. cbv iota. rewrite !bind_Ok.
  change (dominant (mkv3 0 0 0)) with (Some X0). cbn [others bres_loop idx]. change (tget [a; b; c] 0) with (Ok a).
  rewrite bind_Ok. cbn [get c0]. rewrite Z.eqb_refl. reflexivity.
Qed.

Lemma bres_same_2 : forall fuel a b, path (S fuel) [a; b] [a; b] Bresenham = UB.
Proof.
  intros. cbn [path]. unfold bresenham.
  rewrite (bres_axis_same [a; b] 0 a), (bres_axis_same [a; b] 1 b) by reflexivity. reflexivity.
Qed.

Lemma bres_loop_stuck : forall fuel a x2 x0 d, a <> 0 ->
  bres_loop fuel 1 [a] X1 (mkv3 0 1 1) (mkv3 0 0 0) (mkv3 x0 0 x2) d = NoFuel.
Proof.
  induction fuel as [|fuel IH]; intros a x2 x0 d Ha; [reflexivity|].
  cbn [bres_loop idx tget lenZ length]. change (tget [a] 1) with (Ok a). rewrite bind_Ok. cbn [get c1].
  replace (0 =? a) with false by (symmetry; apply Z.eqb_neq; lia).
  unfold bres_check. cbn [others fst snd get set c0 c1 c2].
  destruct (0 <=? c0 d); cbn [get set c0 c1 c2]; destruct d as [e0 e1 e2]; cbn [c0 c1 c2];
    destruct (0 <=? e2); cbn [get set c0 c1 c2]; rewrite ?Z.add_0_r; rewrite IH by auto; reflexivity.
Qed.

Lemma bres_same_1 : forall fuel a, a <> 0 -> path fuel [a] [a] Bresenham = NoFuel.
Proof.
  intros fuel a Ha. cbn [path]. unfold bresenham. rewrite (bres_axis_same [a] 0 a) by reflexivity.
  change (bres_axis [a] [a] 1) with (Ok (1, 0, 0)). change (bres_axis [a] [a] 2) with (Ok (1, 0, 0)).
  change (3 <? lenZ [a]) with false. cbv iota. rewrite !bind_Ok.
  change (dominant (mkv3 0 1 1)) with (Some X1). apply bres_loop_stuck. auto.
Qed.

Lemma bres_same_1_0 : forall fuel, path (S fuel) [0] [0] Bresenham = Ok [[0]].
Proof. reflexivity. Qed.

Lemma line_init_same : forall xa pre, (length (pre ++ xa) <= 3)%nat ->
  exists l, line_init xa (pre ++ xa) (lenZ pre) = Ok l /\ forall d, In d l -> active d = false.
Proof.
  induction xa as [|p xa IH]; intros pre HL; [exists []; split; [reflexivity|intros d []]|].
  cbn [line_init]. unfold line_axis.
  assert (ET : tget (pre ++ p :: xa) (lenZ pre) = Ok p).
  { unfold tget. assert (E : forall k, k = lenZ pre -> vget (pre ++ p :: xa) k = Ok p).
    { intros k ->. rewrite vget_ok by (unfold lenZ; rewrite app_length; cbn [length]; lia).
      unfold zn, lenZ. rewrite Nat2Z.id, app_nth2 by lia. rewrite Nat.sub_diag. reflexivity. }
    destruct (lenZ (pre ++ p :: xa) =? 1) eqn:E1; [|apply E; auto].
    apply E. apply Z.eqb_eq in E1. unfold lenZ in *. rewrite app_length in E1. cbn [length] in E1. lia. }
  rewrite ET, !bind_Ok, Z.sub_diag, i32_0, bind_Ok.
  destruct (IH (pre ++ [p])) as (l & E & H).
  { rewrite <- app_assoc. exact HL. }
  rewrite <- app_assoc in E. cbn [app] in E.
  replace (lenZ (pre ++ [p])) with (lenZ pre + 1) in E by (unfold lenZ; rewrite app_length; cbn [length]; lia).
  rewrite E, bind_Ok. eexists. split; [reflexivity|]. intros d [<-|Hd]; [|auto].
  unfold active. cbn [d_to d_from]. rewrite Z.sub_diag. reflexivity.
Qed.

Lemma line_same : forall fl fuel x, (length x <= 3)%nat -> line fl (S fuel) x x = UB.
Proof.
  intros fl fuel x HL. unfold line. replace (3 <? lenZ x) with false by (symmetry; apply Z.ltb_ge; unfold lenZ; lia).
  destruct (line_init_same x [] HL) as (l & E & H). cbn [app] in E. change (lenZ (@nil Z)) with 0 in E. rewrite E, bind_Ok.
  cbn [line_loop]. unfold tmin. replace (filter active l) with (@nil dimn); [reflexivity|].
  symmetry. clear E. induction l as [|d l IH]; [reflexivity|]. cbn [filter]. rewrite (H d) by (simpl; auto). apply IH.
  intros; apply H; simpl; auto.
Qed.

(** ** actual and full *)

Lemma through_origin_zero : forall x1 n, n = length x1 -> through_origin (repeat 0 n) x1.
Proof.
  intros x1 n ->. exists 0%Q. induction x1 as [|b x1 IH]; [constructor|]. cbn [length repeat]. constructor; auto.
  intros _. change (inject_Z 0) with 0%Q. ring.
Qed.

Lemma actual_from_origin : forall fuel x0 x1, (1 <= length x0 <= 3)%nat -> length x1 = length x0 -> x0 <> x1 ->
  span x0 x1 <= 1000000 -> through_origin x0 x1 -> (Z.to_nat (manhattan x0 x1) <= fuel)%nat ->
  exists rows, path fuel x0 x1 actual = Ok rows /\ path_between (some_closer x1) x0 x1 rows.
Proof.
  intros fuel x0 x1 H1 H2 H3 H4 H5 H6. destruct (line_ok false fuel x0 x1) as (rows & E & P & _); auto. exists rows. auto.
Qed.

Lemma full_from_origin : forall fuel x0 x1, (1 <= length x0 <= 3)%nat -> length x1 = length x0 -> x0 <> x1 ->
  span x0 x1 <= 1000000 -> through_origin x0 x1 -> (Z.to_nat (manhattan x0 x1) <= fuel)%nat ->
  exists rows, path fuel x0 x1 full = Ok rows /\ path_between (one_closer x1) x0 x1 rows /\ lenZ rows = manhattan x0 x1 + 1.
Proof.
  intros fuel x0 x1 H1 H2 H3 H4 H5 H6. destruct (line_ok true fuel x0 x1) as (rows & E & P & Q); auto. exists rows. auto.
Qed.

(** *** Translation *)

(** The state of the path from [x0] ([d']) and the shifted path ([d]). *)
Record sim (wk : Q) (d d' : dimn) : Prop := {
  s_v : d_to d' - d_from d' = d_to d - d_from d;
  s_from : d_from d = 0;
  s_c : d_c d' = d_c d + d_from d';
  s_n : d_next d' = d_next d;
  s_x : active d = true -> (d_x d' == d_x d + slope d * wk)%Q
}.

Lemma sim_active : forall wk d d', sim wk d d' -> active d' = active d.
Proof. intros wk d d' S. unfold active. rewrite (s_v _ _ _ S). reflexivity. Qed.

Lemma sim_slope : forall wk d d', sim wk d d' -> slope d' = slope d.
Proof. intros wk d d' S. unfold slope. rewrite (s_v _ _ _ S). reflexivity. Qed.

Lemma sim_sign : forall wk d d', sim wk d d' -> sign d' = sign d.
Proof. intros wk d d' S. unfold sign. rewrite (s_v _ _ _ S). reflexivity. Qed.

Lemma slope_nz : forall d, active d = true -> ~ (slope d == 0)%Q.
Proof.
  intros d Ha H. unfold active in Ha. rewrite negb_true_iff, Z.eqb_neq in Ha. apply Ha. unfold slope in H.
  change 0%Q with (inject_Z 0) in H. unfold Qeq in H. cbn [Qnum Qden inject_Z] in H. lia.
Qed.

Lemma sim_dist : forall wk d d', sim wk d d' -> active d = true -> (dist d' == dist d - wk)%Q.
Proof.
  intros wk d d' S Ha. unfold dist. rewrite (sim_slope _ _ _ S), (s_n _ _ _ S), (s_x _ _ _ S Ha). field. apply slope_nz. auto.
Qed.

Lemma Qltb_iff : forall a b, Qltb a b = true <-> (a < b)%Q.
Proof.
  intros. unfold Qltb. rewrite negb_true_iff. split; intros H.
  - apply Qnot_le_lt. intros L. rewrite <- Qle_bool_iff in L. congruence.
  - destruct (Qle_bool b a) eqn:E; [|reflexivity]. rewrite Qle_bool_iff in E. lra.
Qed.

Lemma Qltb_ext : forall a b a' b', ((a < b)%Q <-> (a' < b')%Q) -> Qltb a b = Qltb a' b'.
Proof.
  intros a b a' b' H. destruct (Qltb a b) eqn:E; destruct (Qltb a' b') eqn:E'; auto.
  - rewrite Qltb_iff in E. apply H in E. rewrite <- Qltb_iff in E. congruence.
  - rewrite Qltb_iff in E'. apply H in E'. rewrite <- Qltb_iff in E'. congruence.
Qed.

Lemma sim_tmin_from : forall wk l l', Forall2 (sim wk) l l' -> (forall d, In d l -> active d = true) ->
  forall t t', (t' == t - wk)%Q -> (tmin_from t' l' == tmin_from t l - wk)%Q.
Proof.
  intros wk l l' H. induction H as [|d d' l l' Hd H IH]; intros HA t t' Ht; [exact Ht|].
  cbn [tmin_from]. pose proof (sim_dist _ _ _ Hd (HA d (or_introl eq_refl))) as HD.
  assert (EB : Qltb (dist d') t' = Qltb (dist d) t) by (apply Qltb_ext; split; intros; lra).
  rewrite EB. apply IH; [intros; apply HA; simpl; auto|]. destruct (Qltb (dist d) t); lra.
Qed.

Lemma sim_filter : forall wk l l', Forall2 (sim wk) l l' -> Forall2 (sim wk) (filter active l) (filter active l').
Proof.
  intros wk l l' H. induction H as [|d d' l l' Hd H IH]; [constructor|]. cbn [filter]. rewrite (sim_active _ _ _ Hd).
  destruct (active d); [constructor|]; auto.
Qed.

Lemma sim_tmin : forall wk l l', Forall2 (sim wk) l l' ->
  (tmin l = None /\ tmin l' = None) \/ exists tm tm', tmin l = Some tm /\ tmin l' = Some tm' /\ (tm' == tm - wk)%Q.
Proof.
  intros wk l l' H. apply sim_filter in H. unfold tmin.
  assert (HA : forall d, In d (filter active l) -> active d = true) by (intros d Hd; apply filter_In in Hd; apply Hd).
  destruct H as [|d d' k k' Hd H]; [left; auto|right]. eexists. eexists. split; [reflexivity|]. split; [reflexivity|].
  apply sim_tmin_from; auto; [intros; apply HA; simpl; auto|]. apply sim_dist; auto. apply HA. simpl; auto.
Qed.

Lemma sim_crosses : forall wk d d' tm tm', sim wk d d' -> (tm' == tm - wk)%Q -> crosses tm' d' = crosses tm d.
Proof.
  intros wk d d' tm tm' S Ht. unfold crosses. rewrite (sim_active _ _ _ S). destruct (active d) eqn:Ha; [cbn [andb]|reflexivity].
  pose proof (sim_dist _ _ _ S Ha) as HD.
  assert (EE : (dist d' - tm' == dist d - tm)%Q) by lra.
  apply Qltb_ext. rewrite EE. reflexivity.
Qed.

Lemma sim_cross : forall wk d d', sim wk d d' -> sim wk (cross d) (cross d').
Proof.
  intros wk d d' S. pose proof (sim_sign _ _ _ S) as SG. destruct S as [S1 S2 S3 S4 S5].
  split; cbn [cross d_to d_from d_c d_next d_x]; auto; [rewrite SG; lia|rewrite SG, S4; reflexivity].
Qed.

Lemma sim_move : forall w wk d d' tm tm', sim wk d d' -> (active d = true -> (inject_Z (d_from d') == slope d * w)%Q) ->
  (tm' == tm - wk)%Q -> sim (w - wk) (move tm d) (move tm' d').
Proof.
  intros w wk d d' tm tm' S HW Ht. pose proof (sim_slope _ _ _ S) as SL. destruct S as [S1 S2 S3 S4 S5].
  split; cbn [move d_to d_from d_c d_next d_x]; auto. intros Ha. change (active (move tm d)) with (active d) in Ha.
  change (slope (move tm d)) with (slope d). rewrite SL, S2, (HW Ha), Ht. change (inject_Z 0) with 0%Q. ring.
Qed.

Lemma sim_cindex : forall wk l l', Forall2 (sim wk) l l' -> cindex l' = shift (cindex l) (map d_from l').
Proof.
  intros wk l l' H. unfold shift, cindex. induction H as [|d d' l l' Hd H IH]; [reflexivity|].
  cbn [map combine fst snd]. rewrite <- IH, (s_c _ _ _ Hd). reflexivity.
Qed.

Lemma sim_cross_each : forall wk tm tm' todo todo', Forall2 (sim wk) todo todo' -> (tm' == tm - wk)%Q ->
  forall done done', Forall2 (sim wk) done done' ->
  cross_each tm' done' todo' = map (fun r => shift r (map d_from (done' ++ todo'))) (cross_each tm done todo).
Proof.
  intros wk tm tm' todo todo' H Ht. induction H as [|d d' l l' Hd H IH]; intros done done' HD; [reflexivity|].
  cbn [cross_each]. rewrite (sim_crosses _ _ _ _ _ Hd Ht). destruct (crosses tm d).
  - cbn [map]. pose proof (sim_cross _ _ _ Hd) as HC.
    assert (EF : map d_from (done' ++ d' :: l') = map d_from (done' ++ cross d' :: l')) by (rewrite !map_app; reflexivity).
    rewrite EF. f_equal.
    + apply (sim_cindex wk). apply Forall2_app; auto.
    + rewrite (IH (done ++ [cross d]) (done' ++ [cross d'])) by (apply Forall2_app; auto).
      rewrite <- app_assoc. reflexivity.
  - rewrite (IH (done ++ [d]) (done' ++ [d'])) by (apply Forall2_app; auto). rewrite <- app_assoc. reflexivity.
Qed.

Lemma sim_next : forall w wk tm tm' l l', Forall2 (sim wk) l l' ->
  Forall2 (fun d d' => active d = true -> (inject_Z (d_from d') == slope d * w)%Q) l l' -> (tm' == tm - wk)%Q ->
  Forall2 (sim (w - wk)) (next_l tm l) (next_l tm' l') /\
  Forall2 (fun d d' => active d = true -> (inject_Z (d_from d') == slope d * w)%Q) (next_l tm l) (next_l tm' l').
Proof.
  intros w wk tm tm' l l' H HW Ht. induction H as [|d d' l l' Hd H IH]; [split; constructor|].
  inversion HW as [|? ? ? ? HW1 HW2]; subst. destruct (IH HW2) as [I1 I2]. rewrite !next_l_cons, (sim_crosses _ _ _ _ _ Hd Ht).
  destruct (crosses tm d); (split; constructor; auto); apply sim_move; auto; apply sim_cross; auto.
Qed.

Lemma sim_reached : forall wk l l', Forall2 (sim wk) l l' -> reached l' = reached l.
Proof.
  intros wk l l' H. unfold reached. induction H as [|d d' l l' Hd H IH]; [reflexivity|]. cbn [forallb]. rewrite IH. f_equal.
  pose proof (s_v _ _ _ Hd). pose proof (s_c _ _ _ Hd). pose proof (s_from _ _ _ Hd).
  destruct (Z.eqb_spec (d_c d) (d_to d)); destruct (Z.eqb_spec (d_c d') (d_to d')); auto; lia.
Qed.

Lemma sim_loop : forall fl w fuel l l' wk, Forall2 (sim wk) l l' ->
  Forall2 (fun d d' => active d = true -> (inject_Z (d_from d') == slope d * w)%Q) l l' ->
  forall rows, line_loop fl fuel l = Ok rows -> line_loop fl fuel l' = Ok (map (fun r => shift r (map d_from l')) rows).
Proof.
  intros fl w. induction fuel as [|fuel IH]; intros l l' wk H HW rows E; [discriminate|].
  cbn [line_loop] in E |- *. destruct (sim_tmin wk l l' H) as [[X _]|(tm & tm' & X & X' & Ht)]; [rewrite X in E; discriminate|].
  rewrite X in E. rewrite X'. fold (next_l tm l) in E. fold (next_l tm' l').
  destruct (sim_next w wk tm tm' l l' H HW Ht) as [N1 N2].
  assert (ER : (if fl then cross_each tm' [] l' else [cindex (next_l tm' l')]) =
    map (fun r => shift r (map d_from l')) (if fl then cross_each tm [] l else [cindex (next_l tm l)])).
  { destruct fl.
    - apply (sim_cross_each wk tm tm' l l' H Ht [] []). constructor.
    - cbn [map]. rewrite (sim_cindex _ _ _ N1), from_next. reflexivity. }
  rewrite ER, (sim_reached _ _ _ N1). destruct (reached (next_l tm l)).
  - injection E as <-. reflexivity.
  - apply bind_ok in E. destruct E as (rest & E & Z). injection Z as <-.
    rewrite (IH _ _ _ N1 N2 rest E), bind_Ok, from_next, map_app. reflexivity.
Qed.

Lemma mks_sim : forall w x0 x1, length x1 = length x0 ->
  Forall2 (fun a b => a <> b -> (inject_Z a == w * inject_Z (b - a))%Q) x0 x1 ->
  Forall2 (sim w) (mks (repeat 0 (length x0)) (diff x1 x0)) (mks x0 x1) /\
  Forall2 (fun d d' => active d = true -> (inject_Z (d_from d') == slope d * w)%Q) (mks (repeat 0 (length x0)) (diff x1 x0)) (mks x0 x1).
Proof.
  intros w. induction x0 as [|p x0 IH]; intros [|q x1] HL HW; simpl in HL; try discriminate; [split; constructor|].
  inversion HW as [|? ? ? ? W1 W2]; subst. destruct (IH x1 ltac:(lia) W2) as [I1 I2].
  cbn [length repeat]. change (diff (q :: x1) (p :: x0)) with ((q - p) :: diff x1 x0). cbn [mks].
  assert (A : active (mkdimn 0 (q - p) 0 (inject_Z (Z.sgn (q - p - 0)) * (1 # 2)) (inject_Z 0)) = true -> (inject_Z p == inject_Z (q - p) * w)%Q).
  { unfold active. cbn [d_to d_from]. rewrite negb_true_iff, Z.eqb_neq. intros Hn. rewrite W1 by lia. ring. }
  split; constructor; auto.
  - split; cbn [mk d_to d_from d_c d_next d_x]; [lia|lia|lia|rewrite Z.sub_0_r; reflexivity|].
    intros Ha. rewrite (A Ha). unfold slope. cbn [mk d_to d_from]. rewrite Z.sub_0_r. change (inject_Z 0) with 0%Q. ring.
  - intros Ha. cbn [mk d_from]. rewrite (A Ha). unfold slope. cbn [mk d_to d_from]. rewrite Z.sub_0_r. reflexivity.
Qed.

Lemma diff_neq : forall x0 x1, length x1 = length x0 -> x0 <> x1 -> repeat 0 (length x0) <> diff x1 x0.
Proof.
  intros x0 x1 HL HN E. apply HN. clear HN. revert x1 HL E. induction x0 as [|p x0 IH]; intros [|q x1] HL E; simpl in HL; try discriminate; auto.
  cbn [length repeat] in E. change (diff (q :: x1) (p :: x0)) with ((q - p) :: diff x1 x0) in E. injection E as E1 E2. f_equal; [lia|auto].
Qed.

Lemma line_shift : forall fl fuel x0 x1, (1 <= length x0 <= 3)%nat -> length x1 = length x0 -> x0 <> x1 ->
  span x0 x1 <= 1000000 -> through_origin x0 x1 -> (Z.to_nat (manhattan x0 x1) <= fuel)%nat ->
  exists rows, line fl fuel (repeat 0 (length x0)) (diff x1 x0) = Ok rows /\
    line fl fuel x0 x1 = Ok (map (fun r => shift r x0) rows).
Proof.
  intros fl fuel x0 x1 HL HL' HN HS HO Hf.
  assert (HD : length (diff x1 x0) = length (repeat 0 (length x0))) by (rewrite diff_length, repeat_length; auto).
  assert (HM : manhattan (repeat 0 (length x0)) (diff x1 x0) = manhattan x0 x1).
  { clear -HL'. revert x1 HL'. induction x0 as [|p x0 IH]; intros [|q x1] HL; simpl in HL; try discriminate; auto.
    cbn [length repeat]. change (diff (q :: x1) (p :: x0)) with ((q - p) :: diff x1 x0). cbn [manhattan]. rewrite IH by lia. lia. }
  assert (HSp : span (repeat 0 (length x0)) (diff x1 x0) = span x0 x1) by (apply span_diff; auto).
  destruct (line_ok fl fuel (repeat 0 (length x0)) (diff x1 x0)) as (rows & E & _).
  { rewrite repeat_length; auto. } { auto. } { apply diff_neq; auto. } { lia. }
  { apply through_origin_zero. rewrite diff_length; auto. } { lia. }
  exists rows. split; auto. destruct HO as (w & HW).
  destruct (line_start (repeat 0 (length x0)) (diff x1 x0)) as [E1 E2]; [rewrite repeat_length; auto|auto|lia|].
  destruct (line_start x0 x1 HL HL' HS) as [E3 E4].
  unfold line in E |- *. rewrite E1, E2, bind_Ok in E. rewrite E3, E4, bind_Ok.
  apply bind_ok in E. destruct E as (rest & E & X). injection X as <-.
  destruct (mks_sim w x0 x1 HL' HW) as [S1 S2]. destruct (mks_facts w x0 x1 HL' HW) as (_ & _ & F3 & _).
  rewrite (sim_loop fl w fuel _ _ _ S1 S2 rest E), bind_Ok. cbn [map].
  assert (EF : map d_from (mks x0 x1) = x0).
  { clear -HL'. revert x1 HL'. induction x0 as [|p x0 IH]; intros [|q x1] HL; simpl in HL; try discriminate; auto.
    cbn [mks map d_from]. f_equal. apply IH. lia. }
  rewrite (sim_cindex _ _ _ S1), EF. reflexivity.
Qed.

(** *** A path that does not end *)

Definition lost (l : list dimn) : Prop := exists d, In d l /\ active d = true /\ 0 < sign d /\ d_to d < d_c d.

Lemma tmin_active : forall l d, In d l -> active d = true -> exists tm, tmin l = Some tm.
Proof.
  intros l d Hd Ha. unfold tmin. assert (H : In d (filter active l)) by (apply filter_In; auto).
  destruct (filter active l) as [|x k]; [destruct H|]. eexists. reflexivity.
Qed.

Lemma lost_forever : forall fl fuel l, lost l -> line_loop fl fuel l = NoFuel.
Proof.
  intros fl. induction fuel as [|fuel IH]; intros l (d & Hd & Ha & Hs & Hc); [reflexivity|].
  cbn [line_loop]. destruct (tmin_active l d Hd Ha) as (tm & E). rewrite E. fold (next_l tm l).
  set (y := move tm (if crosses tm d then cross d else d)).
  assert (HI : In y (next_l tm l)).
  { unfold next_l, cross_all. rewrite map_map. apply in_map_iff. exists d. split; auto. }
  assert (HY : d_to y < d_c y /\ active y = true /\ 0 < sign y).
  { unfold y. destruct (crosses tm d); cbn [move cross d_c d_to]; (split; [lia|]); split; auto. }
  assert (ER : reached (next_l tm l) = false).
  { destruct (reached (next_l tm l)) eqn:ER; [|auto]. unfold reached in ER. rewrite forallb_forall in ER. specialize (ER y HI).
    apply Z.eqb_eq in ER. lia. }
  rewrite ER, (IH (next_l tm l)); [reflexivity|]. exists y. tauto.
Qed.

Lemma lost_step : forall fl tm l l', tmin l = Some tm -> next_l tm l = l' -> reached l' = false ->
  (forall fuel, line_loop fl fuel l' = NoFuel) -> forall fuel, line_loop fl fuel l = NoFuel.
Proof.
  intros fl tm l l' E1 <- E2 H fuel. destruct fuel as [|fuel]; [reflexivity|]. cbn [line_loop]. rewrite E1. fold (next_l tm l).
  rewrite E2, H. reflexivity.
Qed.

Ltac lost_go := eapply lost_step; [vm_compute; reflexivity|vm_compute; reflexivity|vm_compute; reflexivity|].

Lemma path_5_0_8_3 : forall fuel, path fuel [5; 0] [8; 3] actual = NoFuel /\ path fuel [5; 0] [8; 3] full = NoFuel.
Proof.
  intros fuel. cbn [path]. unfold line. change (3 <? lenZ [5; 0]) with false. cbv iota.
  change (line_init [5; 0] [8; 3] 0) with (Ok (mks [5; 0] [8; 3])). rewrite !bind_Ok.
  assert (H : forall fl fuel, line_loop fl fuel (mks [5; 0] [8; 3]) = NoFuel).
  { intros fl. lost_go. lost_go. lost_go. lost_go. intros f. apply lost_forever.
    eexists. split; [left; reflexivity|]. vm_compute. repeat split. }
  rewrite !H. split; reflexivity.
Qed.
