(** * CenterMoved: centers of moved positions and images *)

From Coq Require Import ZArith List Bool Reals Lra Lia Permutation.
From Verif Require Import Base BaseLemmas Cluster SpecCluster SpecSymmetry ClusterGeom KernelProofs DerivedCluster Center SpecCenter SpecCenterMoved CenterProofs CenterTop CenterLabels CenterRefute.
Import ListNotations.
Open Scope R_scope.

Lemma fit_displaced_mass : forall shape t (l l' : list mass), fit shape (map fst l) -> Forall2 (displaced_mass t) l l' -> fit shape (map fst l').
Proof.
  intros shape t l l' F W. apply (fit_displaced shape t (map fst l)); auto. clear F. induction W as [|m m' l l' [_ H] _ IH]; cbn; constructor; auto.
Qed.
Lemma total_same : forall (R : mass -> mass -> Prop) (l l' : list mass), (forall m m', R m m' -> snd m' = snd m) -> Forall2 R l l' -> total snd l' = total snd l.
Proof. intros R l l' H W. induction W as [|m m' l l' E _ IH]; cbn [total]; [reflexivity|]. rewrite IH, (H _ _ E). reflexivity. Qed.

Lemma coord_displaced : forall shape t k (l l' : list mass), fit shape (map fst l) -> (k < length shape)%nat -> Forall2 (displaced_mass t) l l' ->
  Forall2 (fun m m' : mass => snd m' = snd m /\ coordinate k (fst m') = coordinate k (fst m) + t k) l l'.
Proof.
  intros shape t k l l' F K W. induction W as [|m m' l l' [E [L H]] W IH]; constructor.
  - split; [exact E|]. apply H. rewrite F by (left; reflexivity). assumption.
  - apply IH. intros x Hx. apply F. right. exact Hx.
Qed.

Lemma mass_translate_mean : forall shape (l l' : list mass) t k, fit shape (map fst l) -> total snd l <> 0 -> Forall2 (displaced_mass t) l l' ->
  (k < length shape)%nat ->
  exists r r' c c', center_of_mass shape (map fst l) (map snd l) false = Ok r /\ center_of_mass shape (map fst l') (map snd l') false = Ok r' /\
    at_axis r k c /\ at_axis r' k c' /\ c' = c + t k.
Proof.
  intros shape l l' t k F N W K. assert (F' := fit_displaced_mass _ _ _ _ F W).
  assert (T : total snd l' = total snd l) by (eapply total_same; [|exact W]; intros m m' [H _]; exact H).
  destruct (mass_mean shape l k F N K) as (r & c & E & _ & A & M & _).
  destruct (mass_mean shape l' k F') as (r' & c' & E' & _ & A' & M' & _); [congruence|assumption|].
  exists r, r', c, c'. repeat (split; [assumption|]).
  assert (D := coord_displaced shape t k l l' F K W).
  assert (S : total (fun m => snd m * coordinate k (fst m)) l' = total (fun m => snd m * coordinate k (fst m)) l + t k * total snd l).
  { clear -D. induction D as [|m m' l l' [E H] _ IH]; cbn [total]; [lra|]. rewrite IH, H, E. lra. }
  rewrite T in M'. apply (Rmult_eq_reg_r (total snd l)); [|assumption]. rewrite M', S, <- M. lra.
Qed.

Lemma mass_translate : forall shape (l l' : list mass) t k, fit shape (map fst l) -> 0 < total snd l -> Forall2 (displaced_mass t) l l' ->
  (k < length shape)%nat -> 0 < side shape k -> ~ balanced (side shape k) k l ->
  exists r r' c c', center_of_mass shape (map fst l) (map snd l) true = Ok r /\ center_of_mass shape (map fst l') (map snd l') true = Ok r' /\
    at_axis r k c /\ at_axis r' k c' /\ same_point (side shape k) (c + t k) c'.
Proof.
  intros shape l l' t k F N W K S NB. assert (F' := fit_displaced_mass _ _ _ _ F W).
  assert (T : total snd l' = total snd l) by (eapply total_same; [|exact W]; intros m m' [H _]; exact H).
  destruct (mass_circular shape l k F N K S) as (r & c & E & _ & A & _ & C).
  destruct (mass_circular shape l' k F') as (r' & c' & E' & _ & A' & _ & C'); [congruence|assumption|assumption|].
  exists r, r', c, c'. repeat (split; [assumption|]).
  assert (D := coord_displaced shape t k l l' F K W).
  apply (circular_mean_unique (side shape k) k l'); auto.
  - intro B. apply NB. eapply balanced_turn; [|exact D|exact B]. lra.
  - eapply circular_mean_turn; [|exact D|exact C]. lra.
Qed.

Lemma mass_wrapped : forall shape (l l' : list mass), fit shape (map fst l) -> Forall2 (wrapped_mass shape) l l' ->
  center_of_mass shape (map fst l) (map snd l) true = center_of_mass shape (map fst l') (map snd l') true.
Proof.
  intros shape l l' F W.
  assert (F' : fit shape (map fst l')).
  { clear -F W. induction W as [|p q l l' [_ [L _]] W IH]; cbn [map]; intros x []; subst.
    - rewrite L. apply F. now left.
    - apply IH; [intros y Hy; apply F; now right|assumption]. }
  destruct l as [|m l]; [inversion W; reflexivity|]. destruct l' as [|m' l']; [inversion W|].
  apply mass_ext; auto; try discriminate. intros k Hk.
  assert (T : total snd (m' :: l') = total snd (m :: l)) by (eapply total_same; [|exact W]; intros a a' [H _]; exact H).
  unfold axis_mass. cbn [negb]. destruct (Req_EM_T (side shape k) 0) as [|Z]; [reflexivity|].
  assert (G : forall f : R -> R, (forall x n, f (x + IZR n * (2 * PI)) = f x) ->
    wavg (fun p => f (2 * PI * coordinate k p / side shape k)) (m :: l) = wavg (fun p => f (2 * PI * coordinate k p / side shape k)) (m' :: l')).
  { intros f Hf. unfold wavg. f_equal; [|symmetry; exact T]. clear T F' . revert F. induction W as [|a b x y [E [L H]] W IH]; intro F; [reflexivity|].
    cbn [total]. rewrite IH by (intros u Hu; apply F; right; exact Hu). f_equal. rewrite E. f_equal.
    destruct (H k) as (n & ->); [rewrite F by (left; reflexivity); exact Hk|].
    replace (2 * PI * (coordinate k (fst a) + IZR n * side shape k) / side shape k) with (2 * PI * coordinate k (fst a) / side shape k + IZR n * (2 * PI)) by (field; exact Z).
    symmetry. apply Hf. }
  rewrite (G sin sin_turn), (G cos cos_turn). unfold minus_of. rewrite T. reflexivity.
Qed.

(** ** Images *)
Lemma roll_pixels : forall shape d pixels, (forall p, pixel shape p -> Forall (fun n => (0 < n)%Z) shape) -> length d = length shape ->
  (forall p, In p pixels -> pixel shape p) -> exists pixels', Forall2 (rolls d shape) pixels pixels'.
Proof.
  intros shape d pixels HP HD H. destruct (rolls_matching d shape HP HD) as (_ & TT & _).
  induction pixels as [|p l IH]; [exists []; constructor|]. destruct (TT p (H p (or_introl eq_refl))) as (q & Q).
  destruct IH as (l' & L); [intros; apply H; right; assumption|]. exists (q :: l'). constructor; assumption.
Qed.

Lemma roll_carries : forall shape d labels labels' name pixels pixels', (forall p, pixel shape p -> Forall (fun n => (0 < n)%Z) shape) -> length d = length shape ->
  carried (rolls d shape) labels labels' -> carries shape labels name pixels -> Forall2 (rolls d shape) pixels pixels' -> carries shape labels' name pixels'.
Proof.
  intros shape d labels labels' name pixels pixels' HP HD HC (ND & HI) HF.
  destruct (rolls_matching d shape HP HD) as (TP & TT & TS & TF & TI).
  assert (B : forall q, In q pixels' <-> exists p, In p pixels /\ rolls d shape p q).
  { clear -HF TF. induction HF as [|p q l l' H HF IH]; intros x; cbn [In].
    - split; [intros []|intros (p & [] & _)].
    - rewrite IH. split.
      + intros [<-|(p' & A & B)]; [exists p; auto|exists p'; auto].
      + intros (p' & [<-|A] & B); [left; exact (TF _ _ _ H B)|right; exists p'; auto]. }
  split.
  - clear B HI. induction HF as [|p q l l' H HF IH]; [constructor|]. inversion ND as [|? ? N1 N2]; subst. constructor; [|apply IH; assumption].
    intro X. apply N1. clear -X HF H TI. induction HF as [|a b l l' H' HF IH]; [destruct X|]. destruct X as [<-|X]; [left; exact (TI _ _ _ H' H)|right; auto].
  - intros q. rewrite B. split.
    + intros (p & Ip & R). apply HI in Ip. split; [apply (TP _ _ R)|]. rewrite <- (proj2 Ip). exact (carried_zn _ _ _ HC p q R).
    + intros (Q & E). destruct (TS q Q) as (p & R). exists p. split; [|exact R]. apply HI. split; [apply (TP _ _ R)|]. rewrite <- E. symmetry. exact (carried_zn _ _ _ HC p q R).
Qed.

Lemma moved_coordinates : forall shape d a b, Forall (fun n => (0 < n)%Z) shape -> moved true shape a d b ->
  exists mid, displaced (fun k => IZR (nth k d 0%Z)) (map IZR a) mid /\ wrapped (map IZR shape) mid (map IZR b).
Proof.
  intros shape d a b HP. revert d a b. induction HP as [|n shape Hn HP IH]; intros [|t d] [|x a] [|y b]; cbn [moved]; try tauto.
  - intros _. exists []. split; (split; [reflexivity|intros k Hk; cbn in Hk; lia]).
  - intros [E M]. destruct (IH d a b M) as (mid & (L1 & D) & (L2 & W)). exists ((IZR x + IZR t) :: mid). split; split; cbn [map length] in *; try lia.
    + intros [|k] Hk; [reflexivity|]. cbn [nth]. unfold coordinate in *. cbn [nth]. apply D. lia.
    + intros [|k] Hk; unfold coordinate, side in *; cbn [nth map]; [|apply W; lia]. exists (- ((x + t) / n))%Z. rewrite E.
      rewrite <- plus_IZR, <- mult_IZR, <- plus_IZR. f_equal. pose proof (Z_div_mod_eq_full (x + t) n). lia.
Qed.

Lemma fit_positions : forall shape pixels, fit (map IZR shape) (positions_of shape pixels).
Proof. intros shape pixels p Hp. unfold positions_of in Hp. apply in_map_iff in Hp. destruct Hp as (q & <- & _). rewrite !map_length. apply coords_length. Qed.

Lemma masses_fst : forall shape w pixels, map fst (masses_of shape w pixels) = positions_of shape pixels.
Proof. intros. unfold masses_of, positions_of. rewrite map_map. reflexivity. Qed.
Lemma masses_snd : forall shape w pixels, map snd (masses_of shape w pixels) = map (fun p => nth (Z.to_nat p) w 0) pixels.
Proof. intros. unfold masses_of. rewrite map_map. reflexivity. Qed.

Lemma rolled_masses : forall shape d w w' pixels pixels', (forall p, pixel shape p -> Forall (fun n => (0 < n)%Z) shape) -> length d = length shape ->
  carried (rolls d shape) w w' -> Forall2 (rolls d shape) pixels pixels' ->
  exists mid, Forall2 (displaced_mass (fun k => IZR (nth k d 0%Z))) (masses_of shape w pixels) mid /\ Forall2 (wrapped_mass (map IZR shape)) mid (masses_of shape w' pixels').
Proof.
  intros shape d w w' pixels pixels' HP HD HC HF. induction HF as [|p q l l' R HF (mid & M1 & M2)]; [exists []; split; constructor|].
  pose proof R as (Rp & Rq & RM). destruct (moved_coordinates _ _ _ _ (HP p Rp) RM) as (c & D & W).
  exists ((c, nth (Z.to_nat p) w 0) :: mid). cbn [masses_of map]. split; constructor; auto; (split; cbn [fst snd]; auto).
  apply HC in R. destruct (nth_error w (Z.to_nat p)) eqn:E.
  - rewrite (nth_error_nth w' _ _ R), (nth_error_nth w _ _ E). reflexivity.
  - apply nth_error_None in E, R. rewrite !nth_overflow by assumption. reflexivity.
Qed.

Lemma good_positive : forall shape, good_shape shape -> forall p, pixel shape p -> Forall (fun n => (0 < n)%Z) shape.
Proof. intros shape H p Hp. exact (good_pos shape p H Hp). Qed.

Lemma rolled_centers_of_mass : forall asrt shape d labels labels' w w' name pixels k, good_shape shape -> length d = length shape ->
  lenZ labels = zprod shape -> lenZ labels' = zprod shape -> lenZ w = zprod shape -> lenZ w' = zprod shape ->
  carried (rolls d shape) labels labels' -> carried (rolls d shape) w w' -> carries shape labels name pixels ->
  (k < length shape)%nat -> 0 < total snd (masses_of shape w pixels) ->
  ~ balanced (side (map IZR shape) k) k (masses_of shape w pixels) ->
  exists r r' c c', labels_centers_of_mass asrt shape labels shape w [name] true = Ok [r] /\
    labels_centers_of_mass asrt shape labels' shape w' [name] true = Ok [r'] /\ at_axis r k c /\ at_axis r' k c' /\
    same_point (side (map IZR shape) k) (c + IZR (nth k d 0%Z)) c'.
Proof.
  intros asrt shape d labels labels' w w' name pixels k HS HD L1 L2 W1 W2 C1 C2 HP K T NB.
  pose proof (good_positive shape HS) as GP.
  destruct (roll_pixels shape d pixels GP HD) as (pixels' & RP); [intros p Hp; apply (proj2 HP) in Hp; tauto|].
  pose proof (roll_carries _ _ _ _ _ _ _ GP HD C1 HP RP) as HP'.
  destruct (rolled_masses _ _ _ _ _ _ GP HD C2 RP) as (mid & M1 & M2).
  assert (POS : Forall (fun n => (0 < n)%Z) shape).
  { destruct pixels as [|p pixels]; [cbn in T; lra|]. apply (GP p). apply (proj2 HP). left. reflexivity. }
  assert (F : fit (map IZR shape) (map fst (masses_of shape w pixels))) by (rewrite masses_fst; apply fit_positions).
  assert (S : 0 < side (map IZR shape) k).
  { unfold side. change 0 with (IZR 0%Z) at 2. rewrite map_nth. apply IZR_lt. rewrite Forall_nth in POS. apply POS. exact K. }
  destruct (mass_translate (map IZR shape) _ _ _ k F T M1) as (r & r' & c & c' & E & E' & A & A' & P); [rewrite map_length; exact K|exact S|exact NB|].
  rewrite (mass_wrapped _ _ _ (fit_displaced_mass _ _ _ _ F M1) M2) in E'.
  rewrite masses_fst, masses_snd in E, E'.
  assert (NN : Forall (fun n => (0 <= n)%Z) shape) by (destruct HS as (_ & H & _); exact H).
  destruct (labels_mass_ok asrt shape labels w [name] true (proj1 HS) NN L1 W1) as (rows & R & RF).
  destruct (labels_mass_ok asrt shape labels' w' [name] true (proj1 HS) NN L2 W2) as (rows' & R' & RF').
  inversion RF as [|? x ? xs H1 H2]; subst. inversion H2; subst. inversion RF' as [|? x' ? xs' H1' H2']; subst. inversion H2'; subst.
  specialize (H1 _ HP). specialize (H1' _ HP'). assert (x = r) by congruence. assert (x' = r') by congruence. subst.
  exists r, r', c, c'. auto 6.
Qed.

Lemma rolled_centers : forall asrt shape d labels labels' name pixels k, good_shape shape -> length d = length shape ->
  lenZ labels = zprod shape -> lenZ labels' = zprod shape ->
  carried (rolls d shape) labels labels' -> carries shape labels name pixels -> pixels <> [] ->
  (k < length shape)%nat -> ~ balanced (side (map IZR shape) k) k (unit_mass (positions_of shape pixels)) ->
  exists r r' c c', labels_centers asrt shape labels [name] true = Ok [r] /\
    labels_centers asrt shape labels' [name] true = Ok [r'] /\ at_axis r k c /\ at_axis r' k c' /\
    same_point (side (map IZR shape) k) (c + IZR (nth k d 0%Z)) c'.
Proof.
  intros asrt shape d labels labels' name pixels k HS HD L1 L2 C1 HP NE K NB.
  pose proof (good_positive shape HS) as GP.
  destruct (roll_pixels shape d pixels GP HD) as (pixels' & RP); [intros p Hp; apply (proj2 HP) in Hp; tauto|].
  pose proof (roll_carries _ _ _ _ _ _ _ GP HD C1 HP RP) as HP'.
  assert (POS : Forall (fun n => (0 < n)%Z) shape).
  { destruct pixels as [|p pixels]; [congruence|]. apply (GP p). apply (proj2 HP). left. reflexivity. }
  assert (M : exists mid, Forall2 (displaced (fun k => IZR (nth k d 0%Z))) (positions_of shape pixels) mid /\ Forall2 (wrapped (map IZR shape)) mid (positions_of shape pixels')).
  { clear -RP GP. induction RP as [|p q l l' R RP (mid & M1 & M2)]; [exists []; split; constructor|].
    pose proof R as (Rp & Rq & RM). destruct (moved_coordinates _ _ _ _ (GP p Rp) RM) as (c & D & W). exists (c :: mid). split; constructor; assumption. }
  destruct M as (mid & M1 & M2). pose proof (fit_positions shape pixels) as F.
  assert (S : 0 < side (map IZR shape) k).
  { unfold side. change 0 with (IZR 0%Z) at 2. rewrite map_nth. apply IZR_lt. rewrite Forall_nth in POS. apply POS. exact K. }
  destruct (center_translate (map IZR shape) (positions_of shape pixels) mid (fun k => IZR (nth k d 0%Z)) k F) as (r & r' & c & c' & E & E' & A & A' & P);
    [destruct pixels; [congruence|discriminate]|exact M1|rewrite map_length; exact K|exact S|exact NB|].
  rewrite (center_wrapped _ _ _ (fit_displaced _ _ _ _ F M1) M2) in E'.
  destruct (labels_centers_ok asrt shape labels [name] true (proj1 HS) L1) as (rows & R & RF).
  destruct (labels_centers_ok asrt shape labels' [name] true (proj1 HS) L2) as (rows' & R' & RF').
  inversion RF as [|? x ? xs H1 H2]; subst. inversion H2; subst. inversion RF' as [|? x' ? xs' H1' H2']; subst. inversion H2'; subst.
  specialize (H1 _ HP). specialize (H1' _ HP'). assert (x = r) by congruence. assert (x' = r') by congruence. subst.
  exists r, r', c, c'. auto 6.
Qed.

Lemma four_positions : forall ps, fit [4] ps -> ps <> [] -> (ps = [[0]; [2]] \/ ps = [[1]; [3]]) -> exists r, center [4] ps true = Ok r /\ at_axis r 0 0.
Proof.
  intros ps F N H. apply balanced_center; auto. assert (Z : 2 * PI * 0 / 4 = 0) by field.
  split; unfold sum_cos, sum_sin, unit_mass, coordinate; destruct H as [-> | ->]; cbn [map total fst snd nth].
  - rewrite Z, cos_0, cos_half. ring.
  - rewrite cos_quarter, cos_three. ring.
  - rewrite Z, sin_0, sin_half. ring.
  - rewrite sin_quarter, sin_three. ring.
Qed.

Lemma roll_four : forall p q, rolls [1%Z] [4%Z] p q -> (p = 0 /\ q = 1 \/ p = 1 /\ q = 2 \/ p = 2 /\ q = 3 \/ p = 3 /\ q = 0)%Z.
Proof.
  intros p q (Hp & Hq & M). unfold pixel in Hp, Hq. cbn [zprod coords moved] in *. destruct M as [M _]. rewrite !Z.div_1_r in M.
  assert (P : (p = 0 \/ p = 1 \/ p = 2 \/ p = 3)%Z) by lia. decompose [or] P; subst p; cbn in M; lia.
Qed.

Lemma rolled_balanced : exists shape d labels labels' name r r' c c', good_shape shape /\ length d = length shape /\
  lenZ labels = zprod shape /\ lenZ labels' = zprod shape /\ carried (rolls d shape) labels labels' /\ In name labels /\
  labels_centers true shape labels [name] true = Ok [r] /\ labels_centers true shape labels' [name] true = Ok [r'] /\ at_axis r 0 c /\ at_axis r' 0 c' /\
  ~ same_point (side (map IZR shape) 0) (c + IZR (nth 0 d 0%Z)) c'.
Proof.
  exists [4%Z], [1%Z], [5; 0; 5; 0]%Z, [0; 5; 0; 5]%Z, 5%Z.
  destruct (four_positions [[0]; [2]]) as (r & E & A); [intros p [<-|[<-|[]]]; reflexivity|discriminate|auto|].
  destruct (four_positions [[1]; [3]]) as (r' & E' & A'); [intros p [<-|[<-|[]]]; reflexivity|discriminate|auto|].
  exists r, r', 0, 0.
  split; [split; [discriminate|]; split; [repeat constructor; lia|reflexivity]|]. split; [reflexivity|]. split; [reflexivity|]. split; [reflexivity|].
  split. { intros p q H. apply roll_four in H. decompose [or and] H; subst; reflexivity. }
  split; [left; reflexivity|].
  assert (G : forall l ps r, where_equal [4%Z] l 5 = ps -> no_positions [4] (to_double ps) = false -> center [4] (to_double ps) true = Ok r ->
    labels_centers true [4%Z] l [5%Z] true = Ok [r]).
  { intros l ps x W N C. unfold labels_centers. cbn [assertb length Nat.ltb Nat.leb bind mapM map]. rewrite W. change (map IZR [4%Z]) with [4].
    rewrite N, C. reflexivity. }
  split; [apply (G _ [[0%Z]; [2%Z]]); [vm_compute; reflexivity|reflexivity|exact E]|].
  split; [apply (G _ [[1%Z]; [3%Z]]); [vm_compute; reflexivity|reflexivity|exact E']|].
  split; [exact A|]. split; [exact A'|]. intros [m M]. unfold side in M. cbn [nth map] in M.
  assert (H : 4 * IZR m = -1) by lra. rewrite <- mult_IZR in H. apply eq_IZR in H. lia.
Qed.
