(** * LinealCover: the paths of the lineal path function visit the whole region of interest (proofs only) *)

From Coq Require Import ZArith QArith Qcanon List Bool Lia Lqa Permutation.
From Verif Require Import Base BaseLemmas SpecCluster ClusterGeom ClusterMain Array3 Array3Lemmas Path SpecPath PathProofs PathTop LineProofs LineGeom SpecDilate DilateTop
  Ensemble SpecEnsemble EnsembleSums EnsembleLin EnsembleWindow EnsembleTop EnsembleL SpecSymmetry SpecMoved DerivedCluster DerivedDilate DerivedEnsemble SpecAlgebra DerivedAlgebra DerivedLineal SpecLineal.
Import ListNotations.
Open Scope Z_scope.

(** ** The bound on the number of turns does not matter *)

Lemma bres_loop_more : forall fuel fuel' ndim xb j a s x d rows, (fuel <= fuel')%nat ->
  bres_loop fuel ndim xb j a s x d = Ok rows -> bres_loop fuel' ndim xb j a s x d = Ok rows.
Proof.
  induction fuel as [|fuel IH]; intros fuel' ndim xb j a s x d rows HF H; [discriminate|]. destruct fuel' as [|fuel']; [lia|].
  cbn [bres_loop] in *. destruct (tget xb (idx j)) as [b| | |]; cbn [bind] in *; try discriminate. destruct (get x j =? b); auto.
  destruct (bres_check _ _ _ _) as [x' d']. apply bind_ok in H. destruct H as (rest & H & E). rewrite (IH fuel' _ _ _ _ _ _ _ rest) by (auto; lia). exact E.
Qed.

Lemma line_loop_more : forall fl fuel fuel' l rows, (fuel <= fuel')%nat -> line_loop fl fuel l = Ok rows -> line_loop fl fuel' l = Ok rows.
Proof.
  induction fuel as [|fuel IH]; intros fuel' l rows HF H; [discriminate|]. destruct fuel' as [|fuel']; [lia|].
  cbn [line_loop] in *. destruct (tmin l) as [tm|]; auto. destruct (reached _); auto. apply bind_ok in H. destruct H as (rest & H & E). rewrite (IH fuel' _ rest) by (auto; lia). exact E.
Qed.

Lemma path_more : forall fuel fuel' x0 x1 mode rows, (fuel <= fuel')%nat -> path fuel x0 x1 mode = Ok rows -> path fuel' x0 x1 mode = Ok rows.
Proof.
  assert (L : forall fl fuel fuel' x0 x1 rows, (fuel <= fuel')%nat -> line fl fuel x0 x1 = Ok rows -> line fl fuel' x0 x1 = Ok rows).
  { intros fl fuel fuel' x0 x1 rows HF H. unfold line in *. destruct (3 <? lenZ x0); auto. destruct (line_init x0 x1 0) as [l| | |]; cbn [bind] in *; try discriminate.
    apply bind_ok in H. destruct H as (rest & H & E). rewrite (line_loop_more _ _ _ _ _ HF H). exact E. }
  intros fuel fuel' x0 x1 [ | | ] rows HF H; cbn [path] in *; eauto.
  unfold bresenham in *. destruct (3 <? lenZ x0); auto.
  destruct (bres_axis x0 x1 0) as [[[a0 s0] y0]| | |]; cbn [bind] in *; try discriminate.
  destruct (bres_axis x0 x1 1) as [[[a1 s1] y1]| | |]; cbn [bind] in *; try discriminate.
  destruct (bres_axis x0 x1 2) as [[[a2 s2] y2]| | |]; cbn [bind] in *; try discriminate.
  destruct (dominant _); auto. destruct (others _). eapply bres_loop_more; eauto.
Qed.

Lemma path_det : forall fuel fuel' x0 x1 mode rows rows', path fuel x0 x1 mode = Ok rows -> path fuel' x0 x1 mode = Ok rows' -> rows = rows'.
Proof.
  intros fuel fuel' x0 x1 mode rows rows' H H'. destruct (Nat.le_ge_cases fuel fuel') as [L|L].
  - rewrite (path_more _ _ _ _ _ _ L H) in H'. congruence.
  - rewrite (path_more _ _ _ _ _ _ L H') in H. congruence.
Qed.

(** ** A border element whose path passes through a given element

    [u] are the absolute values of the offset, [l] the distances of the border. *)

Definition aimed (u0 u1 u2 l0 l1 l2 : Z) : Prop := exists v0 v1 v2 k,
  0 <= v0 <= l0 /\ 0 <= v1 <= l1 /\ 0 <= v2 <= l2 /\
  ((0 < u0 /\ v0 = l0) \/ (0 < u1 /\ v1 = l1) \/ (0 < u2 /\ v2 = l2)) /\
  (u0 = 0 -> v0 = 0) /\ (u1 = 0 -> v1 = 0) /\ (u2 = 0 -> v2 = 0) /\
  let t := Z.max v0 (Z.max v1 v2) in
  0 < k <= t /\ 2 * Z.abs (v0 * k - u0 * t) < t /\ 2 * Z.abs (v1 * k - u1 * t) < t /\ 2 * Z.abs (v2 * k - u2 * t) < t.

Lemma aimed_swap12 : forall u0 u1 u2 l0 l1 l2, aimed u0 u2 u1 l0 l2 l1 -> aimed u0 u1 u2 l0 l1 l2.
Proof.
  intros u0 u1 u2 l0 l1 l2 (v0 & v1 & v2 & k & H0 & H1 & H2 & HB & Z0 & Z1 & Z2 & HK & A0 & A1 & A2). exists v0, v2, v1, k.
  cbv zeta in *. rewrite (Z.max_comm v2 v1). tauto.
Qed.

Lemma aimed_swap01 : forall u0 u1 u2 l0 l1 l2, aimed u1 u0 u2 l1 l0 l2 -> aimed u0 u1 u2 l0 l1 l2.
Proof.
  intros u0 u1 u2 l0 l1 l2 (v0 & v1 & v2 & k & H0 & H1 & H2 & HB & Z0 & Z1 & Z2 & HK & A0 & A1 & A2). exists v1, v0, v2, k.
  cbv zeta in *. replace (Z.max v1 (Z.max v0 v2)) with (Z.max v0 (Z.max v1 v2)) by lia. tauto.
Qed.

(** [u * v / w], rounded to the nearest, half down. *)
Definition near (u v w : Z) : Z := (2 * u * v + w - 1) / (2 * w).

Lemma near_err : forall u v w, 0 < w -> - w <= 2 * (near u v w * w - u * v) < w.
Proof. intros u v w Hw. unfold near. pose proof (Z.div_mod (2 * u * v + w - 1) (2 * w) ltac:(lia)). pose proof (Z.mod_pos_bound (2 * u * v + w - 1) (2 * w) ltac:(lia)). nia. Qed.

Lemma near_le : forall u v w l, 0 < w -> 2 * u * v <= (2 * l + 1) * w -> near u v w <= l.
Proof. intros u v w l Hw H. pose proof (near_err u v w Hw) as E. nia. Qed.

Lemma near_ge : forall u v w l, 0 < w -> l * w <= u * v -> l <= near u v w.
Proof. intros u v w l Hw H. pose proof (near_err u v w Hw) as E. nia. Qed.

(** The first axis is the dominant one and is left first. *)
Lemma aimed_0 : forall u0 u1 u2 l0 l1 l2, 0 < u0 -> 0 <= u1 <= u0 -> 0 <= u2 <= u0 -> u0 <= l0 -> u1 <= l1 -> u2 <= l2 ->
  u1 * l0 <= l1 * u0 -> u2 * l0 <= l2 * u0 -> aimed u0 u1 u2 l0 l1 l2.
Proof.
  intros u0 u1 u2 l0 l1 l2 P0 P1 P2 L0 L1 L2 M1 M2.
  exists l0, (near u1 l0 u0), (near u2 l0 u0), u0. cbv zeta.
  assert (G : forall u, 0 <= u <= u0 -> 0 <= near u l0 u0 <= l0 /\ (u = 0 -> near u l0 u0 = 0) /\ 2 * Z.abs (near u l0 u0 * u0 - u * l0) < l0).
  { intros u Hu. pose proof (near_err u l0 u0 P0) as E. assert (N0 : 0 <= near u l0 u0) by (apply near_ge; auto; nia). assert (N1 : near u l0 u0 <= l0) by (apply near_le; auto; nia).
    split; auto. split. { intros ->. assert (near 0 l0 u0 <= 0) by (apply near_le; auto; nia). lia. }
    destruct (Z.eq_dec u0 l0) as [->|NE]; [|lia]. assert (near u l0 l0 = u); [|nia]. assert (near u l0 l0 <= u) by (apply near_le; auto; nia). assert (u <= near u l0 l0) by (apply near_ge; auto; nia). lia. }
  destruct (G u1 P1) as (A1 & B1 & C1). destruct (G u2 P2) as (A2 & B2 & C2).
  replace (Z.max l0 (Z.max (near u1 l0 u0) (near u2 l0 u0))) with l0 by lia.
  split; [lia|]. split; [split; [lia|apply near_le; auto; nia]|]. split; [split; [lia|apply near_le; auto; nia]|].
  split; [left; auto|]. split; [lia|]. split; auto. split; auto. split; [lia|]. split; [replace (l0 * u0 - u0 * l0) with 0 by ring; cbn [Z.abs]; lia|]. split; auto.
Qed.

(** The first axis is the dominant one, the second one is left first. *)
Lemma aimed_1 : forall u0 u1 u2 l0 l1 l2, 0 < u1 <= u0 -> 0 <= u2 <= u0 -> u0 <= l0 -> u1 <= l1 -> u2 <= l2 ->
  u0 * l1 <= l0 * u1 -> u2 * l1 <= l2 * u1 -> aimed u0 u1 u2 l0 l1 l2.
Proof.
  intros u0 u1 u2 l0 l1 l2 P1 P2 L0 L1 L2 M0 M2.
  set (v0 := near u0 l1 u1). pose proof (near_err u0 l1 u1 ltac:(lia)) as E0. fold v0 in E0.
  assert (V0 : v0 <= l0) by (apply near_le; [lia|nia]). assert (V1 : u0 <= v0) by (apply near_ge; [lia|nia]). assert (V2 : l1 <= v0) by (apply near_ge; [lia|nia]).
  clearbody v0. exists v0, l1, (near u2 v0 u0), u0. cbv zeta. pose proof (near_err u2 v0 u0 ltac:(lia)) as E2.
  assert (N0 : 0 <= near u2 v0 u0) by (apply near_ge; [lia|nia]). assert (N1 : near u2 v0 u0 <= v0) by (apply near_le; [lia|nia]).
  replace (Z.max v0 (Z.max l1 (near u2 v0 u0))) with v0 by lia.
  split; [lia|]. split; [lia|]. split. { split; auto. apply near_le; [lia|]. nia. }
  split; [right; left; lia|]. split; [lia|]. split; [lia|]. split. { intros ->. assert (near 0 v0 u0 <= 0) by (apply near_le; [lia|nia]). lia. }
  split; [lia|]. split; [replace (v0 * u0 - u0 * v0) with 0 by ring; cbn [Z.abs]; lia|]. split.
  - destruct (Z.eq_dec u1 v0) as [EQ|NE]; [|lia]. assert (u1 = u0) by lia. assert (l1 = v0) by nia. nia.
  - destruct (Z.eq_dec u0 v0) as [EQ|NE]; [|lia]. assert (near u2 v0 u0 = u2); [|nia]. rewrite <- EQ.
    assert (near u2 u0 u0 <= u2) by (apply near_le; [lia|nia]). assert (u2 <= near u2 u0 u0) by (apply near_ge; [lia|nia]). lia.
Qed.

Lemma aimed_dominant : forall u0 u1 u2 l0 l1 l2, 0 < u0 -> 0 <= u1 <= u0 -> 0 <= u2 <= u0 -> u0 <= l0 -> u1 <= l1 -> u2 <= l2 -> aimed u0 u1 u2 l0 l1 l2.
Proof.
  intros u0 u1 u2 l0 l1 l2 P0 P1 P2 L0 L1 L2.
  destruct (Z_le_gt_dec (u1 * l0) (l1 * u0)) as [A|A].
  - destruct (Z_le_gt_dec (u2 * l0) (l2 * u0)) as [B|B]; [apply aimed_0; auto|].
    apply aimed_swap12. apply aimed_1; auto; nia.
  - destruct (Z_le_gt_dec (u2 * l1) (l2 * u1)) as [B|B]; [apply aimed_1; auto; nia|].
    apply aimed_swap12. apply aimed_1; auto; nia.
Qed.

Lemma aimed_all : forall u0 u1 u2 l0 l1 l2, 0 <= u0 <= l0 -> 0 <= u1 <= l1 -> 0 <= u2 <= l2 -> (0 < u0 \/ 0 < u1 \/ 0 < u2) -> aimed u0 u1 u2 l0 l1 l2.
Proof.
  intros u0 u1 u2 l0 l1 l2 P0 P1 P2 HP.
  destruct (Z_le_gt_dec u1 u0) as [A|A]; destruct (Z_le_gt_dec u2 u0) as [B|B]; destruct (Z_le_gt_dec u2 u1) as [C|C]; try lia.
  - apply aimed_dominant; lia.
  - apply aimed_dominant; lia.
  - apply aimed_swap12, aimed_swap01, aimed_dominant; lia.
  - apply aimed_swap01, aimed_dominant; lia.
  - apply aimed_swap01, aimed_dominant; lia.
  - apply aimed_swap12, aimed_swap01, aimed_dominant; lia.
Qed.

(** ** From distances to offsets *)

Lemma same_pixel : forall t x0 x1 c d, touches x0 x1 t c -> pierces x0 x1 t d -> c = d.
Proof.
  intros t. induction x0 as [|a x0 IH]; intros [|b x1] [|m c] [|n d] HT HP; cbn [touches pierces] in *; try contradiction; auto.
  destruct HT as [[T1 T2] HT]. destruct HP as [[P1 P2] HP]. f_equal; [|eapply IH; eauto].
  set (y := (inject_Z a + inject_Z (b - a) * t)%Q) in *. clearbody y.
  assert (A : (inject_Z m < inject_Z (n + 1))%Q) by (rewrite inject_Z_plus; change (inject_Z 1) with 1%Q; lra).
  assert (B : (inject_Z n < inject_Z (m + 1))%Q) by (rewrite inject_Z_plus; change (inject_Z 1) with 1%Q; lra).
  rewrite <- Zlt_Qlt in A, B. lia.
Qed.

Lemma pierce_axis : forall v u k t, 0 < t -> 2 * Z.abs (v * k - u * t) < t ->
  (- (1 # 2) < inject_Z 0 + inject_Z (v - 0) * (inject_Z k / inject_Z t) - inject_Z u < 1 # 2)%Q.
Proof.
  intros v u k t Ht H. assert (HM : (0 < inject_Z t)%Q) by (change 0%Q with (inject_Z 0); rewrite <- Zlt_Qlt; lia).
  rewrite Z.sub_0_r. set (D := v * k - u * t).
  assert (EQ : (inject_Z 0 + inject_Z v * (inject_Z k / inject_Z t) - inject_Z u == inject_Z D / inject_Z t)%Q).
  { assert (EN : (inject_Z D == inject_Z v * inject_Z k - inject_Z u * inject_Z t)%Q).
    { unfold D, Z.sub. rewrite inject_Z_plus, inject_Z_opp, !inject_Z_mult. ring. }
    rewrite EN. change (inject_Z 0) with 0%Q. field. lra. }
  rewrite EQ. fold D in H. assert (D1 : - t < 2 * D < t) by lia. destruct D1 as [D1 D2].
  rewrite Zlt_Qlt in D1, D2. rewrite inject_Z_opp, inject_Z_mult in D1. rewrite inject_Z_mult in D2. change (inject_Z 2) with 2%Q in *.
  split; [apply Qlt_shift_div_l; lra|apply Qlt_shift_div_r; lra].
Qed.

Lemma signed : forall a v k t, (a = 0 -> v = 0) -> Z.abs (Z.sgn a * v * k - a * t) = Z.abs (v * k - Z.abs a * t).
Proof. intros a v k t H. destruct (Z.lt_trichotomy a 0) as [N|[Z0|P]]; [|subst; rewrite H by auto; reflexivity|]; [rewrite (Z.sgn_neg a), (Z.abs_neq a) by lia|rewrite (Z.sgn_pos a), (Z.abs_eq a) by lia]; lia. Qed.

(** Distance of the border in the direction of an offset. *)
Definition lim (a k : Z) : Z := if a <? 0 then (k - 1) / 2 else k / 2.

Lemma lim_abs : forall a k, - ((k - 1) / 2) <= a <= k / 2 -> 0 <= Z.abs a <= lim a k.
Proof. intros a k Ha. unfold lim. destruct (a <? 0) eqn:S; [apply Z.ltb_lt in S|apply Z.ltb_ge in S]; lia. Qed.

Lemma lim_le : forall a k, lim a k <= k / 2.
Proof. intros a k. unfold lim. destruct (a <? 0); [apply Z.div_le_mono|]; lia. Qed.

Lemma sgn_abs : forall a v, (Z.abs a = 0 -> v = 0) -> 0 <= v -> Z.abs (Z.sgn a * v - 0) = v.
Proof.
  intros a v H Hv. rewrite Z.sub_0_r. destruct (Z.lt_trichotomy a 0) as [N|[Ze|P]]; [rewrite Z.sgn_neg by lia; lia|subst; rewrite H by reflexivity; reflexivity|rewrite Z.sgn_pos by lia; lia].
Qed.

Lemma sgn_box : forall a v k, 0 <= v <= lim a k -> (Z.abs a = 0 -> v = 0) -> 0 <= (k - 1) / 2 -> 0 <= k / 2 -> - ((k - 1) / 2) <= Z.sgn a * v <= k / 2.
Proof.
  intros a v k Hv Hz ? ?. unfold lim in Hv. destruct (a <? 0) eqn:S; [apply Z.ltb_lt in S; rewrite Z.sgn_neg by lia; lia|apply Z.ltb_ge in S].
  destruct (Z.eq_dec a 0) as [->|]; [rewrite Hz by reflexivity; cbn [Z.sgn Z.mul]; lia|rewrite Z.sgn_pos by lia; lia].
Qed.

Lemma sgn_border : forall a k i, 1 <= k -> 0 < Z.abs a -> Z.abs a <= lim a k -> (k - 1) / 2 + k / 2 + 1 = k -> Z.sgn a * lim a k = i - (k - 1) / 2 -> interior k i = false.
Proof.
  intros a k i Hk Hp Hle Hh Hi. unfold interior. unfold lim in Hle, Hi. destruct (a <? 0) eqn:S; [apply Z.ltb_lt in S; rewrite Z.sgn_neg in Hi by lia|apply Z.ltb_ge in S; rewrite Z.sgn_pos in Hi by lia].
  - replace (1 <? k) with true by (symmetry; apply Z.ltb_lt; Z.to_euclidean_division_equations; lia). replace (1 <=? i) with false by (symmetry; apply Z.leb_gt; lia). reflexivity.
  - replace (1 <? k) with true by (symmetry; apply Z.ltb_lt; Z.to_euclidean_division_equations; lia). replace (i <? k - 1) with false by (symmetry; apply Z.ltb_ge; lia). apply andb_false_r.
Qed.

Lemma cover_target : forall per roi shape n0 n1 n2 k0 k1 k2, dims3 per roi shape n0 n1 n2 k0 k1 k2 ->
  forall r, 0 <= r < k0 * k1 * k2 -> offset [k0; k1; k2] r <> [0; 0; 0] ->
  exists x k, In x (edge [k0; k1; k2]) /\ length x = 3%nat /\ [0; 0; 0] <> x /\ 0 < k <= span [0; 0; 0] x /\
    span [0; 0; 0] x <= Z.max (k0 / 2) (Z.max (k1 / 2) (k2 / 2)) /\
    pierces [0; 0; 0] x (inject_Z k / inject_Z (span [0; 0; 0] x)) (offset [k0; k1; k2] r).
Proof.
  intros per roi shape n0 n1 n2 k0 k1 k2 HD r Hr NZ. pose proof (D_pk _ _ _ _ _ _ _ _ _ HD) as (K0 & K1 & K2).
  destruct (offset_box _ _ _ _ _ _ _ _ _ HD r Hr) as (a & b & c & E & Ha & Hb & Hc). rewrite E in *.
  destruct (halves k0) as (H0a&H0b&H0c); [lia|]. destruct (halves k1) as (H1a&H1b&H1c); [lia|]. destruct (halves k2) as (H2a&H2b&H2c); [lia|].
  pose proof (lim_abs a k0 Ha) as Ua. pose proof (lim_abs b k1 Hb) as Ub. pose proof (lim_abs c k2 Hc) as Uc.
  assert (NZ' : 0 < Z.abs a \/ 0 < Z.abs b \/ 0 < Z.abs c).
  { clear -NZ. destruct (Z.eq_dec a 0) as [->|]; [|lia]. destruct (Z.eq_dec b 0) as [->|]; [|lia]. destruct (Z.eq_dec c 0) as [->|]; [|lia]. congruence. }
  destruct (aimed_all (Z.abs a) (Z.abs b) (Z.abs c) (lim a k0) (lim b k1) (lim c k2) Ua Ub Uc NZ') as (v0 & v1 & v2 & k & V0 & V1 & V2 & HB & Z0 & Z1 & Z2 & HK & A0 & A1 & A2).
  cbv zeta in HK, A0, A1, A2.
  exists [Z.sgn a * v0; Z.sgn b * v1; Z.sgn c * v2], k.
  assert (SP : span [0; 0; 0] [Z.sgn a * v0; Z.sgn b * v1; Z.sgn c * v2] = Z.max v0 (Z.max v1 v2)).
  { cbn [span]. rewrite (sgn_abs a v0), (sgn_abs b v1), (sgn_abs c v2) by (auto; apply V0 || apply V1 || apply V2). clear -V0 V1 V2. lia. }
  rewrite SP. assert (PI : pierces [0; 0; 0] [Z.sgn a * v0; Z.sgn b * v1; Z.sgn c * v2] (inject_Z k / inject_Z (Z.max v0 (Z.max v1 v2))) [a; b; c]).
  { assert (t0 : 0 < Z.max v0 (Z.max v1 v2)) by (clear -HK; lia). cbn [pierces].
    assert (S0 : forall x v, (Z.abs x = 0 -> v = 0) -> x = 0 -> v = 0) by (intros x v H Hx; apply H; rewrite Hx; reflexivity).
    split; [|split; [|split; [|exact I]]]; (apply pierce_axis; [exact t0|]; rewrite signed by (apply S0; assumption); assumption). }
  clear A0 A1 A2. split; [|split; [reflexivity|split; [|split; [exact HK|split; [|exact PI]]]]]; clear PI.
  - destruct (box_in_roi _ _ _ _ _ _ _ _ _ HD (Z.sgn a * v0) (Z.sgn b * v1) (Z.sgn c * v2)) as (r' & Hr' & E'); try (apply sgn_box; assumption).
    rewrite E'. unfold edge. apply in_map. apply filter_In. split.
    { apply zrange_In. cbn [zprod]. clear -Hr'. lia. }
    rewrite (border_eq _ _ _ _ _ _ _ _ _ HD r' Hr'). rewrite (off3 _ _ _ _ _ _ _ _ _ HD r' Hr') in E'. unfold of0, of1, of2 in E'. injection E' as E0 E1 E2.
    destruct HB as [[P EV]|[[P EV]|[P EV]]]; rewrite EV in *.
    + rewrite (sgn_border a k0 _ (proj1 K0) P (proj2 Ua) H0c E0). reflexivity.
    + rewrite (sgn_border b k1 _ (proj1 K1) P (proj2 Ub) H1c E1). rewrite andb_false_r. reflexivity.
    + rewrite (sgn_border c k2 _ (proj1 K2) P (proj2 Uc) H2c E2). rewrite andb_false_r. reflexivity.
  - intros EX. rewrite <- EX in SP. cbn [span] in SP. clear -SP HK. cbn in SP. lia.
  - pose proof (lim_le a k0). pose proof (lim_le b k1). pose proof (lim_le c k2). clear -V0 V1 V2 H H0 H1. lia.
Qed.

(** ** Every element is visited *)

Lemma coverable_walkable : forall mode roi, coverable mode roi -> walkable mode roi.
Proof. intros [ | | ] roi H; cbn [coverable walkable] in *; auto; eapply Forall_impl; try exact H; intros n Hn; cbn beta in *; lia. Qed.

Lemma coverable3 : forall mode roi k0 k1 k2, shape3 roi = Ok (k0, k1, k2) -> coverable mode roi ->
  Z.max (k0 / 2) (Z.max (k1 / 2) (k2 / 2)) <= match mode with Bresenham => 2 ^ 29 | _ => 707 end.
Proof.
  intros mode roi k0 k1 k2 E H. assert (M : k0 <= match mode with Bresenham => 2 ^ 30 | _ => 1415 end /\ k1 <= match mode with Bresenham => 2 ^ 30 | _ => 1415 end /\ k2 <= match mode with Bresenham => 2 ^ 30 | _ => 1415 end).
  { destruct roi as [|a [|b [|c [|d s]]]]; cbn [shape3] in E; inversion E; subst; destruct mode; cbn [coverable] in H;
      repeat match goal with X : Forall _ (_ :: _) |- _ => inversion X; subst; clear X end; cbn beta in *; lia. }
  destruct M as (M0 & M1 & M2).
  assert (G : forall m, k0 <= m -> k1 <= m -> k2 <= m -> Z.max (k0 / 2) (Z.max (k1 / 2) (k2 / 2)) <= m / 2).
  { intros m X0 X1 X2. pose proof (Z.div_le_mono k0 m 2 ltac:(lia) X0). pose proof (Z.div_le_mono k1 m 2 ltac:(lia) X1). pose proof (Z.div_le_mono k2 m 2 ltac:(lia) X2). lia. }
  destruct mode; [apply (G (2 ^ 30))|apply (G 1415)|apply (G 1415)]; auto.
Qed.

Lemma all_visited : forall per roi shape mode paths, shapes per roi shape -> coverable mode roi -> (exists n, In n roi /\ 1 < n) ->
  paths_of mode (three roi) paths -> forall r, pixel roi r -> exists rows, In rows paths /\ visits (offset (three roi) r) rows = true.
Proof.
  intros per roi shape mode paths HS HC (n & IN & Hn) HP r Hr. destruct (shapes_dims3 _ _ _ HS) as (n0 & n1 & n2 & k0 & k1 & k2 & HD).
  assert (VI : forall d rows, In d rows -> visits d rows = true) by (intros d rows H; unfold visits; apply existsb_exists; exists d; split; auto; apply same_offset_iff; reflexivity).
  assert (E3 : edge (three roi) <> []).
  { apply edge_nonempty.
    - apply three_pos. eapply Forall_impl; [|apply HS]. intros; cbn beta in *; lia.
    - exists n. split; auto. destruct roi as [|a [|b [|c [|d s]]]]; cbn [three In] in *; tauto. }
  destruct (list_eq_dec Z.eq_dec (offset (three roi) r) [0; 0; 0]) as [EZ|NZ].
  - assert (exists rows, In rows paths) as (rows & IR). { inversion HP as [|x rows l l' _ _ E1 E2]; [congruence|]. exists rows. left. reflexivity. }
    exists rows. split; auto. destruct (paths_head _ _ _ HP rows IR) as (rest & ->). apply VI. left. auto.
  - rewrite (three_eq roi k0 k1 k2) in * by apply HD. unfold pixel in Hr. rewrite (shape3_prod roi k0 k1 k2) in Hr by apply HD.
    destruct (cover_target _ _ _ _ _ _ _ _ _ HD r Hr NZ) as (x & k & IX & LX & NX & HK & HSP & PI).
    assert (G : exists rows, In rows paths /\ exists fuel, path fuel [0; 0; 0] x mode = Ok rows).
    { clear -HP IX. unfold paths_of in HP. remember (edge [k0; k1; k2]) as ed. clear Heqed. induction HP as [|y rows l l' (PX & _) HP IH]; [destruct IX|]. destruct IX as [->|IX]; [exists rows; split; [left; auto|exact PX]|].
      destruct (IH IX) as (rows' & IR & PX'). exists rows'. split; [right; auto|exact PX']. }
    destruct G as (rows & IR & fuel & PE). exists rows. split; auto. apply VI.
    pose proof (coverable3 mode roi k0 k1 k2 (D_k _ _ _ _ _ _ _ _ _ HD) HC) as HM'.
    assert (TO : through_origin [0; 0; 0] x) by (apply (through_origin_zero x 3); auto).
    set (m := span [0; 0; 0] x) in *. assert (T01 : (0 <= inject_Z k / inject_Z m <= 1)%Q).
    { assert (P : (0 < inject_Z m)%Q) by (change 0%Q with (inject_Z 0); rewrite <- Zlt_Qlt; lia).
      split; [apply Qle_shift_div_l; auto; rewrite Qmult_0_l; change 0%Q with (inject_Z 0); rewrite <- Zle_Qle; lia|apply Qle_shift_div_r; auto; rewrite Qmult_1_l, <- Zle_Qle; lia]. }
    assert (L3 : (1 <= length [0; 0; 0] <= 3)%nat) by (cbn; lia).
    destruct mode.
    + assert (S30 : span [0; 0; 0] x < 2 ^ 30) by (change (2 ^ 30) with (2 * 2 ^ 29); lia).
      destruct (bresenham_half (S (Z.to_nat (span [0; 0; 0] x))) [0; 0; 0] x L3 LX NX S30 ltac:(lia)) as (rows' & E' & HT).
      destruct (bresenham_connected (S (Z.to_nat (span [0; 0; 0] x))) [0; 0; 0] x L3 LX NX S30 ltac:(lia)) as (rows'' & E'' & _ & LR).
      assert (rows' = rows) by (eapply path_det; eauto). assert (rows'' = rows) by (eapply path_det; eauto). subst rows' rows''.
      rewrite <- (same_pixel _ _ _ _ _ (HT k ltac:(lia)) PI). apply nth_In. unfold lenZ in LR. lia.
    + destruct (line_pixels false (Z.to_nat (manhattan [0; 0; 0] x)) [0; 0; 0] x L3 LX NX ltac:(lia) TO ltac:(lia)) as (rows' & E' & _ & HT).
      assert (rows' = rows) by (apply (path_det (Z.to_nat (manhattan [0; 0; 0] x)) fuel [0; 0; 0] x actual); auto). subst rows'. eapply HT; eauto.
    + destruct (line_pixels true (Z.to_nat (manhattan [0; 0; 0] x)) [0; 0; 0] x L3 LX NX ltac:(lia) TO ltac:(lia)) as (rows' & E' & _ & HT).
      assert (rows' = rows) by (apply (path_det (Z.to_nat (manhattan [0; 0; 0] x)) fuel [0; 0; 0] x full); auto). subst rows'. eapply HT; eauto.
Qed.
