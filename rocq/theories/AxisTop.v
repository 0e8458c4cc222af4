(** * AxisTop: the lineal path function along an axis (proofs only) *)

From Coq Require Import ZArith QArith Qcanon List Bool Lia Permutation.
From Verif Require Import Base BaseLemmas SpecCluster ClusterGeom ClusterMain Array3 Array3Lemmas Path SpecPath SpecDilate DilateTop
  Ensemble SpecEnsemble EnsembleSums EnsembleLin EnsembleWindow EnsembleTop EnsembleL SpecSymmetry SpecMoved DerivedCluster DerivedDilate DerivedEnsemble SpecAlgebra DerivedAlgebra
  DerivedLineal SpecLineal LinealCover LinealTop EnsembleW2c W2cLaws LinealMoved SpecAxis.
Import ListNotations.
Open Scope Z_scope.

(** ** Paths that stay on an axis *)

(** The three axes of three dimensions. *)
Definition ax (b : nat) (t : Z) : list Z := match b with O => [t; 0; 0] | S O => [0; t; 0] | _ => [0; 0; t] end.
Definition comp (b : nat) (x : list Z) : Z := match x with [u; v; w] => match b with O => u | S O => v | _ => w end | _ => 0 end.

Lemma ax_inj : forall b s t, ax b s = ax b t -> s = t.
Proof. intros [|[|b]] s t H; injection H; auto. Qed.

(** What lies ahead lies between the present place and the goal. *)
Lemma ahead : forall X0 X1 X2 rows a b c x y z, consecutive (some_closer [X0; X1; X2]) ([a; b; c] :: rows) -> In [x; y; z] ([a; b; c] :: rows) ->
  (a <= x <= X0 \/ X0 <= x <= a \/ x = a) /\ (b <= y <= X1 \/ X1 <= y <= b \/ y = b) /\ (c <= z <= X2 \/ X2 <= z <= c \/ z = c).
Proof.
  intros X0 X1 X2. induction rows as [|w rows IH]; intros a b c x y z HC IN.
  - destruct IN as [E|[]]. injection E as -> -> ->. lia.
  - destruct IN as [E|IN]; [injection E as -> -> ->; lia|]. cbn [consecutive] in HC. destruct HC as [[HC _] HR].
    destruct w as [|a' [|b' [|c' [|d' w]]]]; cbn [closer] in HC; try tauto. destruct HC as (A & B & C & _).
    destruct (IH a' b' c' x y z HR IN) as (P & Q & R). clear -A B C P Q R. split; [clear -A P|split; [clear -B Q|clear -C R]]; lia.
Qed.

Lemma next_on_axis : forall b X0 X1 X2 s t w rows, consecutive (some_closer [X0; X1; X2]) (ax b s :: w :: rows) -> In (ax b t) (w :: rows) ->
  w = ax b (s + Z.sgn (comp b [X0; X1; X2] - s)) /\ s <> comp b [X0; X1; X2] /\
  (s < comp b [X0; X1; X2] -> s + 1 <= t) /\ (comp b [X0; X1; X2] < s -> t <= s - 1).
Proof.
  intros b X0 X1 X2 s t w rows HC IN. cbn [consecutive] in HC. destruct HC as [[HC HN] HR].
  destruct b as [|[|b]]; cbn [ax comp] in *;
    destruct w as [|w0 [|w1 [|w2 [|w3 w]]]]; cbn [closer] in HC; try tauto; destruct HC as (A & B & C & _);
    destruct (ahead _ _ _ _ _ _ _ _ _ _ HR IN) as (P & Q & R).
  - assert (w1 = 0) by lia. assert (w2 = 0) by lia. subst w1 w2. destruct A as [->|[A ->]]; [congruence|]. split; auto. split; auto. split; intros LT; [rewrite Z.sgn_pos in P by lia|rewrite Z.sgn_neg in P by lia]; lia.
  - assert (w0 = 0) by lia. assert (w2 = 0) by lia. subst w0 w2. destruct B as [->|[B ->]]; [congruence|]. split; auto. split; auto. split; intros LT; [rewrite Z.sgn_pos in Q by lia|rewrite Z.sgn_neg in Q by lia]; lia.
  - assert (w0 = 0) by lia. assert (w1 = 0) by lia. subst w0 w1. destruct C as [->|[C ->]]; [congruence|]. split; auto. split; auto. split; intros LT; [rewrite Z.sgn_pos in R by lia|rewrite Z.sgn_neg in R by lia]; lia.
Qed.

Lemma same_offset_refl : forall x, same_offset x x = true.
Proof. intros x. apply same_offset_iff. reflexivity. Qed.

Lemma same_offset_ax : forall b s t, s <> t -> same_offset (ax b t) (ax b s) = false.
Proof. intros b s t N. destruct (same_offset (ax b t) (ax b s)) eqn:E; auto. apply same_offset_iff, ax_inj in E. congruence. Qed.

Lemma visits_In : forall d rows, visits d rows = true <-> In d rows.
Proof.
  intros d rows. unfold visits. rewrite existsb_exists. split; [intros (x & IN & E); apply same_offset_iff in E; subst; auto|].
  intros IN. exists d. split; auto. apply same_offset_refl.
Qed.

Lemma walk_axis : forall good b X0 X1 X2 t rows s, consecutive (some_closer [X0; X1; X2]) (ax b s :: rows) -> In (ax b t) (ax b s :: rows) ->
  SpecEnsemble.reaches good (ax b t) (ax b s :: rows) = forallb (fun i => good (ax b i)) (zrange (Z.min s t) (Z.max s t + 1)).
Proof.
  intros good b X0 X1 X2 t. induction rows as [|w rows IH]; intros s HC IN.
  - destruct IN as [E|[]]. apply ax_inj in E. subst t. rewrite Z.min_id, Z.max_id, zrange_cons, zrange_nil by lia.
    cbn [SpecEnsemble.reaches forallb]. rewrite same_offset_refl. reflexivity.
  - destruct (Z.eq_dec s t) as [->|NT].
    + rewrite Z.min_id, Z.max_id, zrange_cons, zrange_nil by lia. cbn [SpecEnsemble.reaches forallb]. rewrite same_offset_refl. reflexivity.
    + destruct IN as [E|IN]; [apply ax_inj in E; congruence|]. destruct (next_on_axis _ _ _ _ _ _ _ _ HC IN) as (-> & NS & UP & DN).
      set (X := comp b [X0; X1; X2]) in *. clearbody X.
      change (SpecEnsemble.reaches good (ax b t) (ax b s :: ax b (s + Z.sgn (X - s)) :: rows)) with
        (good (ax b s) && (same_offset (ax b t) (ax b s) || SpecEnsemble.reaches good (ax b t) (ax b (s + Z.sgn (X - s)) :: rows))).
      rewrite same_offset_ax by auto. cbn [orb]. rewrite IH; [|apply HC|exact IN].
      destruct (Z.lt_trichotomy s X) as [L|[E|L]]; [|congruence|].
      * specialize (UP L). rewrite Z.sgn_pos by lia. rewrite !Z.min_l, !Z.max_r by lia. rewrite (zrange_cons s) by lia. reflexivity.
      * specialize (DN L). rewrite Z.sgn_neg by lia. rewrite !Z.min_r, !Z.max_l by lia. rewrite (zrange_S t s) by lia. rewrite forallb_app. cbn [forallb].
        rewrite andb_true_r, andb_comm. f_equal. f_equal. f_equal. lia.
Qed.

(** ** Axes of an image seen as a three-dimensional one *)

Definition axis3 (n a : nat) : nat := match n with 1%nat => 1%nat | _ => a end.

Lemma lift_along : forall n a t, (n <= 3)%nat -> (a < n)%nat -> lift (along n a t) = ax (axis3 n a) t.
Proof.
  intros n a t Hn Ha. destruct n as [|[|[|[|n]]]]; try lia; destruct a as [|[|[|a]]]; try lia; reflexivity.
Qed.

Lemma movedb_three : forall per shape p d q, (length shape <= 3)%nat -> Forall (fun n => 1 <= n) shape -> pixel shape p -> pixel shape q -> length d = length shape ->
  movedb per (three shape) (coords (three shape) p) (lift d) (coords (three shape) q) = movedb per shape (coords shape p) d (coords shape q).
Proof.
  intros per shape p d q HL HP Hp Hq Hd. rewrite !coords_three by auto. pose proof (EnsembleSums.coords_length shape p) as L1. pose proof (EnsembleSums.coords_length shape q) as L2.
  destruct shape as [|x [|y [|z [|u s]]]]; cbn in HL; try lia; destruct d as [|d0 [|d1 [|d2 [|d3 d]]]]; try discriminate;
    destruct (coords _ p) as [|a0 [|a1 [|a2 [|a3 a]]]]; try discriminate; destruct (coords _ q) as [|b0 [|b1 [|b2 [|b3 b]]]]; try discriminate;
    cbn [three lift movedb]; destruct per; rewrite ?Z.mod_1_r; cbn; rewrite ?andb_true_r; reflexivity.
Qed.

Lemma phase_three : forall per shape f p d, (length shape <= 3)%nat -> Forall (fun n => 1 <= n) shape -> pixel shape p -> length d = length shape ->
  in_phase per (three shape) f p (lift d) = in_phase per shape f p d.
Proof.
  intros per shape f p d HL HP Hp Hd. unfold in_phase, pixels. rewrite zprod3 by auto. apply eq_true_iff_eq. rewrite !existsb_exists.
  split; intros (q & IQ & HQ); exists q; split; auto; apply zrange_In in IQ; [rewrite movedb_three in HQ by auto|rewrite movedb_three by auto]; exact HQ.
Qed.

Lemma along_length : forall n a t, length (along n a t) = n.
Proof. intros n a t. unfold along. rewrite map_length, seq_length. reflexivity. Qed.

(** ** The lineal path function along an axis *)

Lemma L_axis : forall asrt per var roi shape f mode, shapes per roi shape -> is_image shape f -> coverable mode roi -> (exists n, In n roi /\ 1 < n) ->
  exists e, fresh asrt roi per var (CallL f mode) = Ok e /\
    forall r a t, pixel roi r -> (a < length roi)%nat -> offset roi r = along (length roi) a t ->
      result_at e r = Exact (straight_fraction per shape (i_vals f) a t).
Proof.
  intros asrt per var roi shape f mode HS Hf HC HB. destruct (L_counts_all per roi shape mode HS (coverable_walkable _ _ HC)) as (paths & HP & HA).
  destruct (HA asrt var f Hf) as (e & E & _ & V). exists e. split; auto. intros r a t Hr Ha HO. destruct (V r Hr) as (A & B & C). clear V HA.
  pose proof HS as (HL & HL3 & HR & HN & _). assert (HR1 : Forall (fun n => 1 <= n) roi) by (eapply Forall_impl; [|exact HR]; cbn beta; intros; lia).
  destruct (all_visited per roi shape mode paths HS HC HB HP r Hr) as (rows0 & IR0 & HV0).
  rewrite (offset_three roi r) in * by (auto; lia). rewrite HO in *. rewrite lift_along in * by lia. set (b := axis3 (length roi) a) in *.
  assert (LF : forall i, lift (along (length shape) a i) = ax b i) by (intros i; unfold b; rewrite HL; apply lift_along; lia).
  assert (PS : forall rows, In rows paths -> exists X0 X1 X2 rest, rows = ax b 0 :: rest /\ consecutive (some_closer [X0; X1; X2]) (ax b 0 :: rest)).
  { assert (Z3 : ax b 0 = [0; 0; 0]) by (destruct b as [|[|b']]; reflexivity). rewrite Z3.
    assert (EL : forall x, In x (edge (three roi)) -> length x = 3%nat) by (intros x; apply edge_length; apply three_length; lia).
    clear -HP EL. unfold paths_of in HP. remember (edge (three roi)) as ed. clear Heqed. induction HP as [|x rows l l' (_ & PB) HP IH]; intros y IN; [destruct IN|].
    destruct IN as [<-|IN]; [|apply IH; auto; intros; apply EL; right; auto]. specialize (EL x (or_introl eq_refl)). destruct x as [|X0 [|X1 [|X2 [|X3 x]]]]; try discriminate.
    destruct PB as (P1 & P2 & P3). destruct rows as [|z rest]; [discriminate|]. cbn in P1. injection P1 as ->. exists X0, X1, X2, rest. auto. }
  assert (CB : lenZ (filter (fun walk : list (list Z) * Z => SpecEnsemble.reaches (in_phase per (three shape) (i_vals f) (snd walk)) (ax b t) (fst walk)) (list_prod paths (pixels shape)))
             = lenZ (filter (visits (ax b t)) paths) * lenZ (filter (straight per shape (i_vals f) a t) (pixels shape))).
  { apply count_both. intros rows p IR IP. cbn [fst snd]. unfold pixels in IP. apply zrange_In in IP. destruct (PS rows IR) as (X0 & X1 & X2 & rest & -> & P1).
    destruct (visits (ax b t) (ax b 0 :: rest)) eqn:EV; cbn [andb].
    - apply visits_In in EV. rewrite (walk_axis _ b X0 X1 X2 t rest 0 P1 EV). unfold straight.
      apply eq_true_iff_eq. rewrite !forallb_forall. split; intros H i IN; specialize (H i IN);
        [rewrite <- LF, phase_three in H by (auto; rewrite along_length; lia)|rewrite <- LF, phase_three by (auto; rewrite along_length; lia)]; exact H.
    - destruct (SpecEnsemble.reaches _ (ax b t) (ax b 0 :: rest)) eqn:ER; auto. apply reaches_visits in ER. congruence. }
  rewrite CB in A. rewrite count_through in B. destruct (image_count shape HN) as [Z1 LN]. rewrite LN in B.
  set (c := lenZ (filter (visits (ax b t)) paths)) in *.
  assert (Hc : 1 <= c). { unfold c. assert (IF : In rows0 (filter (visits (ax b t)) paths)) by (apply filter_In; auto). destruct (filter (visits (ax b t)) paths); [destruct IF|]. rewrite lenZ_cons. pose proof (lenZ_nonneg _ l0). lia. }
  rewrite C, A, B, quotient_zq. assert (NZ : c * zprod shape <> 0) by nia. apply Z.eqb_neq in NZ. rewrite NZ. unfold straight_fraction. f_equal. rewrite !zq_mult.
  assert (Qc0 : zq c <> 0%Qc) by (intros Q; rewrite <- zq_0 in Q; apply zq_inj in Q; lia). assert (Qn0 : zq (zprod shape) <> 0%Qc) by (intros Q; rewrite <- zq_0 in Q; apply zq_inj in Q; lia).
  field. auto.
Qed.

(** ** Longer stretches are rarer, and there are as many one way as the other *)

Lemma straight_shorter : forall per shape f a t t' p, 0 <= t <= t' \/ t' <= t <= 0 -> straight per shape f a t' p = true -> straight per shape f a t p = true.
Proof.
  intros per shape f a t t' p HT H. unfold straight in *. rewrite forallb_forall in *. intros i IN. apply H. apply zrange_In. apply zrange_In in IN. lia.
Qed.

Lemma along_plus : forall n a s t, along n a (s + t) = map (fun xy => fst xy + snd xy) (combine (along n a s) (along n a t)).
Proof.
  intros n a s t. unfold along. induction (seq 0 n) as [|i l IH]; [reflexivity|]. cbn [map combine fst snd]. rewrite <- IH. f_equal. destruct (Nat.eqb i a); lia.
Qed.

Lemma movedb_then : forall per shape a d b e c, Forall (fun n => 1 <= n) shape -> movedb per shape a d b = true -> length e = length shape ->
  movedb per shape b e c = movedb per shape a (map (fun xy => fst xy + snd xy) (combine d e)) c.
Proof.
  intros per. induction shape as [|n shape IH]; intros [|x a] [|t d] [|y b] [|u e] [|z c] HN HM HE; cbn [movedb combine map fst snd length] in *; try discriminate; auto.
  inversion HN; subst. apply andb_true_iff in HM. destruct HM as [HM1 HM2]. rewrite (IH a d b e c) by (auto; lia). f_equal. destruct per.
  - apply Z.eqb_eq in HM1. subst y. rewrite Z.add_mod_idemp_l by lia. f_equal. f_equal. lia.
  - apply Z.eqb_eq in HM1. subst y. f_equal. lia.
Qed.

Lemma phase_then : forall per shape f a s t p q, Forall (fun n => 1 <= n) shape -> movedb per shape (coords shape p) (along (length shape) a s) (coords shape q) = true ->
  in_phase per shape f q (along (length shape) a t) = in_phase per shape f p (along (length shape) a (s + t)).
Proof.
  intros per shape f a s t p q HN HM. unfold in_phase. apply eq_true_iff_eq. rewrite !existsb_exists.
  split; intros (x & IX & HX); exists x; split; auto;
    [rewrite (movedb_then per shape _ _ _ (along (length shape) a t) _ HN HM), <- along_plus in HX by apply along_length; exact HX
    |rewrite (movedb_then per shape _ _ _ (along (length shape) a t) _ HN HM), <- along_plus by apply along_length; exact HX].
Qed.

Lemma straight_back : forall per shape f a t p q, Forall (fun n => 1 <= n) shape -> movedb per shape (coords shape p) (along (length shape) a t) (coords shape q) = true ->
  straight per shape f a t p = true -> straight per shape f a (- t) q = true.
Proof.
  intros per shape f a t p q HN HM H. unfold straight in *. rewrite forallb_forall in *. intros i IN. apply zrange_In in IN.
  rewrite (phase_then per shape f a t i p q HN HM). apply H. apply zrange_In. lia.
Qed.

Lemma along_opp : forall n a t, along n a (- t) = opposite (along n a t).
Proof.
  intros n a t. unfold along, opposite. rewrite map_map. apply map_ext. intros i. destruct (Nat.eqb i a); reflexivity.
Qed.

Lemma injected : forall (R : Z -> Z -> Prop) (l m : list Z), NoDup l -> (forall p, In p l -> exists q, In q m /\ R p q) ->
  (forall p p' q, In p l -> In p' l -> R p q -> R p' q -> p = p') -> lenZ l <= lenZ m.
Proof.
  intros R l. induction l as [|p l IH]; intros m ND HE HI; [unfold lenZ; cbn; lia|]. inversion ND as [|? ? NI ND']; subst.
  destruct (HE p (or_introl eq_refl)) as (q & IQ & RQ). destruct (in_split _ _ IQ) as (m1 & m2 & ->).
  assert (X : lenZ l <= lenZ (m1 ++ m2)).
  { apply IH; auto.
    - intros p' IP. destruct (HE p' (or_intror IP)) as (q' & IQ' & RQ'). exists q'. split; auto. apply in_app_iff. apply in_app_iff in IQ'. destruct IQ' as [?|[<-|?]]; auto.
      exfalso. apply NI. rewrite (HI p p' q); auto; simpl; auto.
    - intros; eapply HI; simpl; eauto. }
  unfold lenZ in *. rewrite app_length in *. cbn [length]. lia.
Qed.

Lemma straight_count : forall per shape f a t, Forall (fun n => 1 <= n) shape ->
  lenZ (filter (straight per shape f a t) (pixels shape)) <= lenZ (filter (straight per shape f a (- t)) (pixels shape)).
Proof.
  intros per shape f a t HN. assert (HP : Forall (fun n => 0 < n) shape) by (eapply Forall_impl; [|exact HN]; cbn beta; intros; lia).
  apply (injected (fun p q => pixel shape q /\ movedb per shape (coords shape p) (along (length shape) a t) (coords shape q) = true)).
  - apply NoDup_filter, zrange_NoDup.
  - intros p IP. apply filter_In in IP. destruct IP as [IP HS]. pose proof HS as HS'. unfold straight in HS'. rewrite forallb_forall in HS'.
    assert (HT := HS' t ltac:(apply zrange_In; lia)). unfold in_phase in HT. apply existsb_exists in HT. destruct HT as (q & IQ & HQ). apply andb_true_iff in HQ. destruct HQ as [HQ _].
    exists q. split; [apply filter_In; split; auto; eapply straight_back; eauto|]. unfold pixels in IQ. apply zrange_In in IQ. split; auto.
  - intros p p' q IP IP' [HQ H] [_ H']. apply filter_In in IP, IP'. destruct IP as [IP _], IP' as [IP' _]. unfold pixels in *. apply zrange_In in IP, IP'.
    apply (coords_inj shape); auto. rewrite <- movedb_opp in H, H' by (auto; apply coords_inside; auto). apply movedb_iff in H, H'. eapply moved_functional; eauto.
Qed.

Lemma L_axis_laws : forall asrt per var roi shape f mode, shapes per roi shape -> is_image shape f -> coverable mode roi -> (exists n, In n roi /\ 1 < n) ->
  exists e, fresh asrt roi per var (CallL f mode) = Ok e /\
    forall r r' a t t', pixel roi r -> pixel roi r' -> (a < length roi)%nat -> offset roi r = along (length roi) a t -> offset roi r' = along (length roi) a t' ->
      exists l l', result_at e r = Exact l /\ result_at e r' = Exact l' /\
        (0 <= t <= t' \/ t' <= t <= 0 -> (l' <= l)%Qc) /\ (t' = - t -> l' = l).
Proof.
  intros asrt per var roi shape f mode HS Hf HC HB. destruct (L_axis asrt per var roi shape f mode HS Hf HC HB) as (e & E & V). exists e. split; auto.
  assert (HN : Forall (fun n => 1 <= n) shape) by apply HS. destruct (image_count shape HN) as [Z1 _].
  intros r r' a t t' Hr Hr' Ha O O'. rewrite (V r a t Hr Ha O), (V r' a t' Hr' Ha O'). do 2 eexists. split; [reflexivity|]. split; [reflexivity|]. unfold straight_fraction. split.
  - intros HT. apply div_le; try lia. apply Z.mul_le_mono_nonneg_r; [lia|]. apply filter_le. intros p. apply straight_shorter. exact HT.
  - intros ->. f_equal. f_equal. apply Z.le_antisymm; [|apply straight_count; auto].
    etransitivity; [apply straight_count; auto|]. rewrite Z.opp_involutive. lia.
Qed.

(** ** Neither the region of interest nor the kind of path matters along an axis *)

Lemma L_axis_any : forall asrt per var roi roi' shape f mode mode', shapes per roi shape -> shapes per roi' shape -> is_image shape f ->
  coverable mode roi -> coverable mode' roi' -> (exists n, In n roi /\ 1 < n) -> (exists n, In n roi' /\ 1 < n) ->
  exists e e', fresh asrt roi per var (CallL f mode) = Ok e /\ fresh asrt roi' per var (CallL f mode') = Ok e' /\
    forall r r' a t, pixel roi r -> pixel roi' r' -> (a < length shape)%nat ->
      offset roi r = along (length shape) a t -> offset roi' r' = along (length shape) a t -> result_at e r = result_at e' r'.
Proof.
  intros asrt per var roi roi' shape f mode mode' HS HS' Hf HC HC' HB HB'.
  destruct (L_axis asrt per var roi shape f mode HS Hf HC HB) as (e & E & V). destruct (L_axis asrt per var roi' shape f mode' HS' Hf HC' HB') as (e' & E' & V').
  exists e, e'. split; auto. split; auto. assert (L : length roi = length shape) by apply HS. assert (L' : length roi' = length shape) by apply HS'.
  intros r r' a t Hr Hr' Ha O O'. rewrite (V r a t), (V' r' a t); auto; try congruence.
Qed.
