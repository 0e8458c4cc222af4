(** * PadTop: an image inside a larger one (proofs only) *)

From Coq Require Import ZArith QArith Qcanon List Bool Lia Permutation.
From Verif Require Import Base BaseLemmas Cluster SpecCluster ClusterGeom ClusterAbs ClusterRun ClusterMain ClusterTop Dilate SpecDilate DilateTop SpecPath Path Array3 Array3Lemmas Ensemble SpecEnsemble EnsembleSums EnsembleWindow EnsembleTop
  SpecSymmetry DerivedCluster DerivedDilate DerivedEnsemble SpecMoved SpecPad.
Import ListNotations.
Open Scope Z_scope.

(** ** Where the pixels go *)

Lemma widened_cons : forall b before a after n shape, widened (b :: before) (a :: after) (n :: shape) = b + n + a :: widened before after shape.
Proof. reflexivity. Qed.

Lemma margins_cons : forall b before a after n shape, margins (b :: before) (a :: after) (n :: shape) <-> 0 <= b /\ 0 <= a /\ margins before after shape.
Proof.
  intros. unfold margins. cbn [length]. split.
  - intros (H1 & H2 & H3 & H4). inversion H3; inversion H4; subst. repeat split; auto; lia.
  - intros (H1 & H2 & H3 & H4 & H5 & H6). repeat split; auto; lia.
Qed.

Ltac by_axes before after shape :=
  revert before after; induction shape as [|n shape IH]; intros [|b before] [|a0 after];
  try (intros; match goal with HM : margins _ _ _ |- _ => destruct HM as (? & ? & _); discriminate end).

Lemma widened_length : forall before after shape, margins before after shape -> length (widened before after shape) = length shape.
Proof. intros before after shape (H1 & H2 & _). unfold widened. rewrite map_length, !combine_length. lia. Qed.

Lemma widened_Forall : forall k before after shape, margins before after shape -> Forall (fun n => k <= n) shape -> Forall (fun n => k <= n) (widened before after shape).
Proof.
  intros k before after shape. by_axes before after shape; [constructor|]. intros HM HF. rewrite margins_cons in HM. destruct HM as (B & A & HM).
  inversion HF; subst. rewrite widened_cons. constructor; [lia|auto].
Qed.

Lemma shift_inside : forall before after shape a, margins before after shape -> inside shape a -> exists b, inside (widened before after shape) b /\ moved false shape a before b.
Proof.
  intros before after shape. by_axes before after shape; [intros [|x a] _ HI; [exists []; split; exact I|destruct HI]|].
  intros [|x a] HM HI; [destruct HI|]. rewrite margins_cons in HM. destruct HM as (B & A & HM). cbn [inside] in HI. destruct HI as [Hx HI].
  destruct (IH _ _ a HM HI) as (y & Hy & My). exists (x + b :: y). rewrite widened_cons. cbn [inside moved]. split; split; auto; lia.
Qed.

Lemma placed_total : forall before after shape p, margins before after shape -> Forall (fun n => 0 <= n) shape -> pixel shape p -> exists q, placed before after shape p q.
Proof.
  intros before after shape p HM HN Hp. assert (HP : Forall (fun n => 0 < n) shape) by (eapply zprod_some; auto; unfold pixel in Hp; lia).
  destruct (shift_inside before after shape (coords shape p) HM) as (b & Hb & Mb); [apply coords_inside; auto|].
  destruct (pixel_of_coords _ b Hb) as (q & Hq & <-). exists q. split; auto.
Qed.

Lemma placed_fun : forall before after shape p q q', margins before after shape -> Forall (fun n => 0 <= n) shape -> placed before after shape p q -> placed before after shape p q' -> q = q'.
Proof.
  intros before after shape p q q' HM HN (P & Q & M) (_ & Q' & M').
  apply (coords_inj (widened before after shape)); auto.
  - apply zprod_some; [apply widened_Forall; auto|unfold pixel in Q; lia].
  - eapply moved_functional; eauto.
Qed.

Lemma moved_false_inj : forall shape a a' d b, length a = length shape -> length a' = length shape -> moved false shape a d b -> moved false shape a' d b -> a = a'.
Proof.
  induction shape as [|n shape IH]; intros [|x a] [|x' a'] [|t d] [|y b]; cbn [moved length]; intros L L'; try discriminate; try tauto; auto.
  intros [E1 H1] [E2 H2]. f_equal; [lia|eapply IH; eauto; lia].
Qed.

Lemma placed_inj : forall before after shape p p' q, Forall (fun n => 0 <= n) shape -> placed before after shape p q -> placed before after shape p' q -> p = p'.
Proof.
  intros before after shape p p' q HN (P & Q & M) (P' & _ & M').
  assert (HP : Forall (fun n => 0 < n) shape) by (eapply zprod_some; auto; unfold pixel in P; lia).
  apply (coords_inj shape); auto. apply (moved_false_inj shape _ _ before (coords (widened before after shape) q)); auto using coords_length.
Qed.

(** Row-major order is kept. *)
Lemma placed_lt : forall before after shape p p2 q q2, margins before after shape -> Forall (fun n => 0 < n) shape ->
  pixel shape p -> pixel shape p2 -> pixel (widened before after shape) q -> pixel (widened before after shape) q2 ->
  moved false shape (coords shape p) before (coords (widened before after shape) q) ->
  moved false shape (coords shape p2) before (coords (widened before after shape) q2) -> p < p2 -> q < q2.
Proof.
  intros before after shape. by_axes before after shape.
  { intros p p2 q q2 _ _ P P2. unfold pixel in *. cbn in P, P2. lia. }
  intros p p2 q q2 HM HF P P2 Q Q2. rewrite margins_cons in HM. destruct HM as (B & A & HM). inversion HF as [|? ? Hn HF']; subst.
  rewrite widened_cons in *. cbn [coords moved]. unfold pixel in *. cbn [zprod] in *. intros [E M] [E2 M2] L.
  assert (HW : Forall (fun n => 0 < n) (widened before after shape)).
  { pose proof (widened_Forall 1 before after shape HM) as W. apply (Forall_impl _ (P := fun n => 1 <= n)); [intros; lia|]. apply W. eapply Forall_impl; [|exact HF']. intros; cbn in *; lia. }
  pose proof (zprod_pos _ HF') as Z1. pose proof (zprod_pos _ HW) as Z2.
  set (N := zprod shape) in *. set (N' := zprod (widened before after shape)) in *.
  pose proof (Z.div_mod p N ltac:(lia)) as D1. pose proof (Z.div_mod p2 N ltac:(lia)) as D2.
  pose proof (Z.div_mod q N' ltac:(lia)) as D3. pose proof (Z.div_mod q2 N' ltac:(lia)) as D4.
  pose proof (Z.mod_pos_bound p N ltac:(lia)) as B1. pose proof (Z.mod_pos_bound p2 N ltac:(lia)) as B2.
  pose proof (Z.mod_pos_bound q N' ltac:(lia)) as B3. pose proof (Z.mod_pos_bound q2 N' ltac:(lia)) as B4.
  destruct (Z_lt_le_dec (p / N) (p2 / N)) as [LT|LE].
  - rewrite D3, D4, E, E2. nia.
  - assert (EQ : p / N = p2 / N) by (pose proof (Z.div_le_mono p p2 N ltac:(lia) ltac:(lia)); lia).
    assert (X : q mod N' < q2 mod N') by (apply (IH before after (p mod N) (p2 mod N)); auto; lia).
    rewrite D3, D4, E, E2, EQ. lia.
Qed.

Lemma placed_order : forall before after shape p p2 q q2, margins before after shape -> Forall (fun n => 0 <= n) shape ->
  placed before after shape p q -> placed before after shape p2 q2 -> (p < p2 <-> q < q2).
Proof.
  intros before after shape p p2 q q2 HM HN HT HT2. pose proof HT as (P & Q & M). pose proof HT2 as (P2 & Q2 & M2).
  assert (HP : Forall (fun n => 0 < n) shape) by (eapply zprod_some; auto; unfold pixel in P; lia).
  split; [apply (placed_lt before after shape); auto|]. intros L.
  destruct (Z.lt_trichotomy p p2) as [H|[H|H]]; auto; exfalso.
  - subst p2. rewrite (placed_fun _ _ _ _ _ _ HM HN HT HT2) in L. lia.
  - apply (placed_lt before after shape p2 p q2 q) in H; auto. lia.
Qed.

(** ** Neighbours *)

Lemma face_placed : forall per before after shape x y x' y', margins before after shape -> (per = true -> surrounded before after) ->
  inside shape x -> inside shape y -> moved false shape x before x' -> moved false shape y before y' ->
  (face false shape x y <-> face per (widened before after shape) x' y').
Proof.
  intros per before after shape. by_axes before after shape; [intros [|x xs] ys x' y' _ _ HX; [cbn; tauto|destruct HX]|].
  intros [|x xs] [|y ys] [|x' xs'] [|y' ys'] HM HS HX HY; cbn [moved inside] in *; try tauto. intros [-> MX] [-> MY].
  rewrite margins_cons in HM. destruct HM as (B & A & HM). rewrite widened_cons. cbn [face].
  assert (HS' : per = true -> 1 <= b + a0 /\ surrounded before after) by (intros E; specialize (HS E); unfold surrounded in HS; cbn [combine] in HS; inversion HS; subst; auto).
  rewrite (IH before after xs ys xs' ys'); auto; try tauto; try (intros E; apply HS'; auto).
  assert (EE : xs = ys <-> xs' = ys').
  { split; [intros ->; eapply moved_functional; eauto|intros ->; apply (moved_false_inj shape xs ys before ys'); auto; apply inside_length; tauto]. }
  rewrite EE. assert (E0 : x = y <-> x + b = y + b) by lia. rewrite E0.
  assert (E1 : (if per then y + b = (x + b + 1) mod (b + n + a0) \/ y + b = (x + b - 1) mod (b + n + a0) else y + b = x + b + 1 \/ y + b = x + b - 1) <-> y = x + 1 \/ y = x - 1).
  { destruct per; [|lia]. destruct (HS' eq_refl) as [S1 _]. clear -HX HY S1 A B. destruct HX as [HX _], HY as [HY _].
    assert (M1 : (x + b + 1) mod (b + n + a0) = if x + b + 1 =? b + n + a0 then 0 else x + b + 1).
    { destruct (Z.eqb_spec (x + b + 1) (b + n + a0)) as [E|E]; [rewrite E; apply Z_mod_same_full|apply Z.mod_small; lia]. }
    assert (M2 : (x + b - 1) mod (b + n + a0) = if x + b =? 0 then b + n + a0 - 1 else x + b - 1).
    { destruct (Z.eqb_spec (x + b) 0) as [E|E]; [|apply Z.mod_small; lia]. rewrite E. symmetry. apply Z.mod_unique with (q := -1); lia. }
    rewrite M1, M2. destruct (Z.eqb_spec (x + b + 1) (b + n + a0)), (Z.eqb_spec (x + b) 0); lia. }
  rewrite E1. tauto.
Qed.

Lemma face_neighbour_placed : forall per before after shape x y x' y', margins before after shape -> Forall (fun n => 0 <= n) shape -> (per = true -> surrounded before after) ->
  placed before after shape x x' -> placed before after shape y y' -> (face_neighbour false shape x y <-> face_neighbour per (widened before after shape) x' y').
Proof.
  intros per before after shape x y x' y' HM HN HS (P & P' & M) (Q & Q' & M'). unfold face_neighbour.
  assert (HP : Forall (fun n => 0 < n) shape) by (eapply zprod_some; auto; unfold pixel in P; lia).
  rewrite (face_placed per before after shape (coords shape x) (coords shape y) (coords (widened before after shape) x') (coords (widened before after shape) y') HM HS); auto using coords_inside. tauto.
Qed.

(** ** Clusters *)

Lemma zero_or_margin : forall before after shape q, margins before after shape -> Forall (fun n => 0 <= n) shape -> pixel (widened before after shape) q ->
  (exists p, placed before after shape p q) \/ in_margin before after shape q.
Proof.
  intros before after shape q HM HN Hq.
  assert (G : forall k, (Z.of_nat k <= zprod shape) -> (exists p, placed before after shape p q) \/ forall p, 0 <= p < Z.of_nat k -> ~ placed before after shape p q).
  { induction k as [|k IH]; intros HK; [right; lia|]. destruct IH as [IH|IH]; [lia|auto|].
    assert (Hp : pixel shape (Z.of_nat k)) by (unfold pixel; lia). destruct (placed_total before after shape _ HM HN Hp) as (q' & T).
    destruct (Z.eq_dec q' q) as [->|NE]; [left; eauto|]. right. intros p HB T'. destruct (Z.eq_dec p (Z.of_nat k)) as [->|]; [|apply (IH p); auto; lia].
    apply NE. eapply placed_fun; eauto. }
  destruct (Z_le_gt_dec 0 (zprod shape)) as [L|L].
  - destruct (G (Z.to_nat (zprod shape)) ltac:(lia)) as [H|H]; auto. right. split; auto. intros p T. apply (H p); auto. destruct T as (P & _). unfold pixel in P. lia.
  - right. split; auto. intros p (P & _). unfold pixel in P. lia.
Qed.

Lemma pull_back : forall before after shape lab', margins before after shape -> Forall (fun n => 0 <= n) shape ->
  exists a, lenZ a = zprod shape /\ forall p q, placed before after shape p q -> zn a p = zn lab' q.
Proof.
  intros before after shape lab' HM HN. destruct (forall2_total (placed before after shape) (pixels shape)) as (l' & Hl).
  { intros x Hx. apply placed_total; auto. apply zrange_In in Hx. exact Hx. }
  pose proof (zprod_nonneg0 _ HN) as Z0.
  exists (map (zn lab') l'). split.
  { unfold lenZ. rewrite map_length. assert (EL : length l' = length (pixels shape)) by (clear -Hl; induction Hl; cbn [length]; congruence). rewrite EL. unfold pixels. rewrite zrange_length. lia. }
  intros p q T. unfold zn at 1. pose proof T as (P & _).
  assert (E : nth_error (pixels shape) (Z.to_nat p) = Some p) by (unfold pixels; rewrite (zrange_split 0 p (zprod shape)), (zrange_cons p) by (unfold pixel in P; lia);
    rewrite nth_error_app2 by (rewrite zrange_length; lia); rewrite zrange_length, Z.sub_0_r, Nat.sub_diag; reflexivity).
  assert (exists q', nth_error l' (Z.to_nat p) = Some q' /\ placed before after shape p q') as (q' & E' & T').
  { clear -Hl E. revert E. generalize (Z.to_nat p) as k. induction Hl; intros k E; destruct k; cbn in *; try discriminate; [injection E as <-; eauto|eauto]. }
  rewrite (nth_error_nth _ _ 0 (map_nth_error (zn lab') _ _ E')). f_equal. eapply placed_fun; eauto.
Qed.

Lemma pad_clusters : forall asrt before after shape img img' per, good_shape shape -> (length shape <= 3)%nat ->
  margins before after shape -> zprod (widened before after shape) < big -> (per = true -> surrounded before after) ->
  zero_padded before after shape img img' ->
  exists lab lab', clusters asrt shape img false = Ok lab /\ clusters asrt (widened before after shape) img' per = Ok lab' /\
    zero_padded before after shape lab lab'.
Proof.
  intros asrt before after shape img img' per HG H3 HM HB HS (L & L' & HC0 & HZ). pose proof (carried_zn _ _ _ HC0) as HC.
  assert (HN : Forall (fun n => 0 <= n) shape) by apply HG.
  assert (HG' : good_shape (widened before after shape)).
  { split; [|split; [apply widened_Forall; auto|exact HB]]. intros E. apply (f_equal (@length Z)) in E. rewrite widened_length in E by auto. destruct HG as (G & _). destruct shape; [tauto|discriminate]. }
  destruct (clusters_ok asrt shape img false HG) as (lab & E & Ll & Z1 & C1 & N1 & N2 & N3); auto.
  destruct (clusters_ok asrt (widened before after shape) img' per HG') as (lab' & E' & Ll' & Z2 & C2 & M1 & M2 & M3); auto; try (rewrite widened_length; auto).
  exists lab, lab'. split; auto. split; auto.
  assert (MZ : forall q, in_margin before after shape q -> zn lab' q = 0) by (intros q Hq; apply Z2; [apply Hq|apply HZ; auto]).
  destruct (pull_back before after shape lab' HM HN) as (a & La & Ha).
  assert (TOT : forall p, pixel shape p -> exists q, placed before after shape p q) by (intros; apply placed_total; auto).
  assert (ONTO : forall q, pixel (widened before after shape) q -> zn lab' q <> 0 -> exists p, placed before after shape p q).
  { intros q Hq NZ. destruct (zero_or_margin before after shape q HM HN Hq) as [H|H]; [exact H|exfalso; apply NZ; auto]. }
  assert (FI : forall f p f' p', placed before after shape f f' -> placed before after shape p p' -> zn a p <> 0 -> first_of shape a f p -> first_of (widened before after shape) lab' f' p').
  { intros f p f' p' Tf Tp NZ (F1 & F2 & F3). split; [apply Tf|]. split; [change (zn lab' f' = zn lab' p'); rewrite <- (Ha _ _ Tf), <- (Ha _ _ Tp); exact F2|].
    intros q Hq Eq. change (zn lab' q = zn lab' p') in Eq. rewrite <- (Ha _ _ Tp) in Eq. destruct (ONTO q Hq) as (q0 & Tq); [congruence|].
    assert (f <= q0) by (apply F3; [apply Tq|change (zn a q0 = zn a p); rewrite (Ha _ _ Tq); auto]).
    destruct (Z.eq_dec f q0) as [->|]; [rewrite (placed_fun _ _ _ _ _ _ HM HN Tf Tq); lia|]. apply Z.lt_le_incl. apply (placed_order before after shape f q0); auto; lia. }
  assert (KEY : forall p, pixel shape p -> zn lab p = zn a p).
  { apply (canonical_unique shape lab a).
    - exact (conj N2 (conj N1 N3)).
    - split; [intros p Hp; destruct (TOT p Hp) as (q & T); rewrite (Ha _ _ T); apply M2; apply T|]. split.
      + destruct M1 as (n & M1). exists n. intros v. rewrite M1. split; intros (V & p & Hp & Ep); split; auto.
        * destruct (ONTO p Hp) as (p0 & T); [congruence|]. exists p0. split; [apply T|]. rewrite (Ha _ _ T). auto.
        * destruct (TOT p Hp) as (q & T). exists q. split; [apply T|]. rewrite <- (Ha _ _ T). auto.
      + intros p q f h Hp Hq NP NQ Ff Fh. destruct (TOT p Hp) as (p' & Tp). destruct (TOT q Hq) as (q' & Tq).
        destruct (TOT f (proj1 Ff)) as (f' & Tf). destruct (TOT h (proj1 Fh)) as (h' & Th).
        rewrite (placed_order before after shape f h f' h') by auto. rewrite (Ha _ _ Tp), (Ha _ _ Tq).
        apply M3; try (apply Tp || apply Tq); [rewrite <- (Ha _ _ Tp); auto|rewrite <- (Ha _ _ Tq); auto|eapply FI; eauto|eapply FI; eauto].
    - intros p Hp. destruct (TOT p Hp) as (q & T). rewrite (Ha _ _ T), Z1, Z2, (HC _ _ T) by (auto; apply T). tauto.
    - intros p q Hp Hq. destruct (TOT p Hp) as (p' & Tp). destruct (TOT q Hq) as (q' & Tq). rewrite (Ha _ _ Tp), (Ha _ _ Tq).
      assert (Pp' : pixel (widened before after shape) p') by apply Tp. assert (Pq' : pixel (widened before after shape) q') by apply Tq.
      pose proof (Z1 p Hp) as Zp. pose proof (Z1 q Hq) as Zq. pose proof (Z2 p' Pp') as Zp'. pose proof (Z2 q' Pq') as Zq'. rewrite (HC _ _ Tp) in Zp'. rewrite (HC _ _ Tq) in Zq'.
      destruct (Z.eq_dec (zn img p) 0) as [X|X].
      { apply Zp in X as Y. apply Zp' in X as Y'. rewrite Y, Y'. split; intros H; symmetry; symmetry in H; tauto. }
      destruct (Z.eq_dec (zn img q) 0) as [X'|X'].
      { apply Zq in X' as Y. apply Zq' in X' as Y'. rewrite Y, Y'. tauto. }
      rewrite C1, C2 by (auto; rewrite ?(HC _ _ Tp), ?(HC _ _ Tq); auto).
      split; intros HL.
      + eapply (linked_map (face_neighbour false shape) (face_neighbour per (widened before after shape)) (fun x => pixel shape x /\ zn img x <> 0)
          (fun x => pixel (widened before after shape) x /\ zn img' x <> 0) (placed before after shape)); eauto.
        * intros x [Hx _]; auto.
        * intros x x' y y' Tx Ty. apply face_neighbour_placed; auto.
        * intros x x' Tx [_ Hx]. split; [apply Tx|]. rewrite (HC _ _ Tx). auto.
        * intros x x' x'' T T'. eapply placed_fun; eauto.
      + eapply (linked_map (face_neighbour per (widened before after shape)) (face_neighbour false shape)
          (fun x => pixel (widened before after shape) x /\ zn img' x <> 0) (fun x => pixel shape x /\ zn img x <> 0) (fun x y => placed before after shape y x)); eauto.
        * intros x [Hx Nx]. destruct (zero_or_margin before after shape x HM HN Hx) as [H|H]; [exact H|exfalso; apply Nx; auto].
        * intros x x' y y' Tx Ty. apply face_neighbour_placed; auto.
        * intros x x' Tx [_ Hx]. split; [apply Tx|]. rewrite <- (HC _ _ Tx). auto.
        * intros x x' x'' T T'. eapply placed_inj; eauto. }
  split; auto. split; auto. split; auto. intros p q T. pose proof T as (Hp & Hq & _). unfold pixel in Hp, Hq.
  assert (EZ : zn lab' q = zn lab p) by (rewrite KEY, (Ha _ _ T) by auto; reflexivity).
  unfold zn in EZ. rewrite (nth_error_nth' lab' 0) by (unfold lenZ in *; lia). rewrite (nth_error_nth' lab 0) by (unfold lenZ in *; lia). f_equal. exact EZ.
Qed.

(** ** Dilation *)

Definition clamps (before after shape : list Z) (q p : Z) : Prop :=
  pixel shape p /\ pixel (widened before after shape) q /\
  coords shape p = map (fun x => Z.max 0 (Z.min (snd x - 1) (fst (fst x) - snd (fst x)))) (combine (combine (coords (widened before after shape) q) before) shape).

Definition pulled (before shape a : list Z) : list Z :=
  map (fun x => Z.max 0 (Z.min (snd x - 1) (fst (fst x) - snd (fst x)))) (combine (combine a before) shape).

Lemma pulled_inside : forall before shape a, Forall (fun n => 0 < n) shape -> length before = length shape -> length a = length shape -> inside shape (pulled before shape a).
Proof.
  intros before shape. revert before. induction shape as [|n shape IH]; intros [|b before] [|x a] HF L L'; try discriminate; [exact I|].
  inversion HF; subst. cbn [pulled combine map fst snd inside]. split; [lia|]. apply IH; auto.
Qed.

Lemma clamps_total : forall before after shape q, margins before after shape -> Forall (fun n => 0 < n) shape -> pixel (widened before after shape) q -> exists p, clamps before after shape q p.
Proof.
  intros before after shape q HM HF Hq. destruct (pixel_of_coords shape (pulled before shape (coords (widened before after shape) q))) as (p & Hp & E).
  - apply pulled_inside; auto; [apply HM|]. rewrite coords_length. apply widened_length; auto.
  - exists p. split; auto.
Qed.

Lemma clamps_fun : forall before after shape q p p', Forall (fun n => 0 < n) shape -> clamps before after shape q p -> clamps before after shape q p' -> p = p'.
Proof. intros before after shape q p p' HF (P & _ & E) (P' & _ & E'). apply (coords_inj shape); auto. congruence. Qed.

Lemma pulled_moved : forall before shape x x', inside shape x -> moved false shape x before x' -> pulled before shape x' = x.
Proof.
  intros before shape. revert before. induction shape as [|n shape IH]; intros [|b before] [|x xs] [|x' xs'] HI; cbn [moved inside] in *; try tauto; auto.
  intros [-> M]. cbn [pulled combine map fst snd]. f_equal; [lia|]. apply IH; tauto.
Qed.

Lemma placed_clamps : forall before after shape p q, Forall (fun n => 0 < n) shape -> placed before after shape p q -> clamps before after shape q p.
Proof.
  intros before after shape p q HF (P & Q & M). split; auto. split; auto. symmetry. apply pulled_moved; auto. apply coords_inside; auto.
Qed.

(** The displacement between clamped positions lies between zero and the displacement. *)
Lemma pulled_step : forall before after shape x d y, Forall (fun n => 0 < n) shape -> margins before after shape -> length x = length shape ->
  moved false (widened before after shape) x d y ->
  exists d', Forall2 (fun t t' => 0 <= t' <= t \/ t <= t' <= 0) d d' /\ moved false shape (pulled before shape x) d' (pulled before shape y).
Proof.
  intros before after shape. by_axes before after shape.
  - intros [|x xs] [|t d] [|y ys] _ _ _; cbn [widened combine map moved]; try tauto. intros _. exists []. split; [constructor|exact I].
  - intros [|x xs] [|t d] [|y ys] HF HM; rewrite ?widened_cons; cbn [moved length]; intros L; try tauto; try discriminate. intros [-> M].
    rewrite margins_cons in HM. destruct HM as (B & A & HM). inversion HF; subst.
    destruct (IH before after xs d ys) as (d' & D & MD); auto.
    exists (Z.max 0 (Z.min (n - 1) (x + t - b)) - Z.max 0 (Z.min (n - 1) (x - b)) :: d'). split; [constructor; auto; lia|].
    cbn [pulled combine map fst snd moved]. split; [lia|exact MD].
Qed.

Lemma pulled_face : forall before after shape x y, Forall (fun n => 0 < n) shape -> margins before after shape -> length x = length shape -> length y = length shape ->
  face false (widened before after shape) x y -> pulled before shape x = pulled before shape y \/ face false shape (pulled before shape x) (pulled before shape y).
Proof.
  intros before after shape. by_axes before after shape.
  - intros [|x xs] [|y ys] _ _ L L'; try discriminate. auto.
  - intros [|x xs] [|y ys] HF HM L L'; try discriminate. rewrite widened_cons. cbn [face].
    rewrite margins_cons in HM. destruct HM as (B & A & HM). inversion HF; subst. cbn [pulled combine map fst snd face].
    intros [[-> F]|[E ->]].
    + destruct (IH before after xs ys ltac:(assumption) HM ltac:(cbn in L; lia) ltac:(cbn in L'; lia) F) as [EQ|F']; [left; f_equal; exact EQ|right; left; split; [reflexivity|exact F']].
    + set (px := Z.max 0 (Z.min (n - 1) (x - b))). set (py := Z.max 0 (Z.min (n - 1) (y - b))).
      assert (C : px = py \/ (py = px + 1 \/ py = px - 1)) by lia.
      destruct C as [->|C]; [left; reflexivity|]. right. right. split; [exact C|reflexivity].
Qed.

Lemma reaches_lazy_map : forall (adj adj' : Z -> Z -> Prop) (S S' P : Z -> Prop) (T : Z -> Z -> Prop),
  (forall x, P x -> exists x', T x x') -> (forall x y, adj x y -> P x /\ P y) -> (forall x, S x -> P x) ->
  (forall x x' y y', T x x' -> T y y' -> adj x y -> x' = y' \/ adj' x' y') -> (forall x x', T x x' -> S x -> S' x') ->
  (forall x x' x'', T x x' -> T x x'' -> x' = x'') ->
  forall k p, SpecDilate.reaches adj S k p -> forall p', T p p' -> SpecDilate.reaches adj' S' k p'.
Proof.
  intros adj adj' S S' P T Htot HP HSP Hadj HS Hfun k p R p' Hp.
  apply (reaches_lazy (fun x y => x = y \/ adj' x y)); auto.
  eapply (reaches_map adj (fun x y => x = y \/ adj' x y) S S' P T); eauto.
Qed.

(** What a growth by steps inside the image reaches is what it reaches in the larger one. *)
Lemma reaches_pad : forall before after shape f f' (adj adj' : Z -> Z -> Prop) n, margins before after shape -> Forall (fun n => 0 < n) shape ->
  zero_padded before after shape f f' ->
  (forall x y, adj x y -> pixel shape x /\ pixel shape y) -> (forall x y, adj' x y -> pixel (widened before after shape) x /\ pixel (widened before after shape) y) ->
  (forall x x' y y', placed before after shape x x' -> placed before after shape y y' -> adj x y -> adj' x' y') ->
  (forall x x' y y', clamps before after shape x' x -> clamps before after shape y' y -> adj' x' y' -> x = y \/ adj x y) ->
  forall p q, placed before after shape p q ->
    (SpecDilate.reaches adj (fun x => pixel shape x /\ zn f x <> 0) n p <-> SpecDilate.reaches adj' (fun x => pixel (widened before after shape) x /\ zn f' x <> 0) n q).
Proof.
  intros before after shape f f' adj adj' n HM HF (_ & _ & HC0 & HZ) HA HA' FW BW p q T. pose proof (carried_zn _ _ _ HC0) as HC.
  assert (HN : Forall (fun n => 0 <= n) shape) by (eapply Forall_impl; [|exact HF]; intros; cbn in *; lia). split; intros R.
  - eapply (reaches_map adj adj' (fun x => pixel shape x /\ zn f x <> 0) (fun x => pixel (widened before after shape) x /\ zn f' x <> 0) (pixel shape) (placed before after shape)); eauto; try (intros x [Hx _]; exact Hx).
    + intros; apply placed_total; auto.
    + intros x x' Tx [_ Nx]. split; [apply Tx|]. rewrite (HC _ _ Tx). auto.
    + intros x x' x'' T1 T2. eapply placed_fun; eauto.
  - eapply (reaches_lazy_map adj' adj (fun x => pixel (widened before after shape) x /\ zn f' x <> 0) (fun x => pixel shape x /\ zn f x <> 0) (pixel (widened before after shape)) (clamps before after shape)); eauto; try (intros x [Hx _]; exact Hx).
    + intros; apply clamps_total; auto.
    + intros x x' Tx [Px Nx]. split; [apply Tx|]. destruct (zero_or_margin before after shape x HM HN Px) as [(x0 & T0)|H]; [|exfalso; apply Nx; auto].
      rewrite <- (clamps_fun _ _ _ _ _ _ HF (placed_clamps _ _ _ _ _ HF T0) Tx). rewrite <- (HC _ _ T0). auto.
    + intros x x' x'' T1 T2. eapply clamps_fun; eauto.
    + apply placed_clamps; auto.
Qed.

Lemma placed_moved : forall before after shape d x y x' y', length x = length shape -> length y = length shape -> margins before after shape ->
  moved false shape x before x' -> moved false shape y before y' -> (moved false shape x d y <-> moved false (widened before after shape) x' d y').
Proof.
  intros before after shape. by_axes before after shape.
  - intros d [|x xs] [|y ys] [|x' xs'] [|y' ys'] L L'; try discriminate; cbn [widened combine map moved]; try tauto.
  - intros [|t d] [|x xs] [|y ys] [|x' xs'] [|y' ys'] L L' HM; try discriminate; rewrite ?widened_cons; cbn [moved]; try tauto.
    intros [-> M] [-> M']. rewrite margins_cons in HM. destruct HM as (B & A & HM).
    rewrite (IH before after d xs ys xs' ys') by auto. split; intros [E R]; (split; [lia|exact R]).
Qed.

Lemma kernel_step_placed : forall before after shape ks kv x x' y y', margins before after shape ->
  placed before after shape x x' -> placed before after shape y y' -> (kernel_step false shape ks kv x y <-> kernel_step false (widened before after shape) ks kv x' y').
Proof.
  intros before after shape ks kv x x' y y' HM (P & P' & M) (Q & Q' & M'). unfold kernel_step.
  split; intros (_ & _ & d & D & MD); (split; [auto|]; split; [auto|]); exists d; (split; [exact D|]);
    apply (placed_moved before after shape d (coords shape x) (coords shape y) (coords (widened before after shape) x') (coords (widened before after shape) y')); auto using coords_length.
Qed.

Lemma pos_of : forall shape, Forall (fun n => 1 <= n) shape -> Forall (fun n => 0 < n) shape.
Proof. intros shape H. eapply Forall_impl; [|exact H]. intros; cbn in *; lia. Qed.

Lemma coords_widened : forall before after shape q, margins before after shape -> length (coords (widened before after shape) q) = length shape.
Proof. intros. rewrite coords_length. apply widened_length; auto. Qed.

Lemma pad_dilate : forall asrt before after shape f f' ks kv n, dilatable_n false shape f ks kv -> dilatable_n false (widened before after shape) f' ks kv ->
  margins before after shape -> zero_padded before after shape f f' -> shrinkable ks kv -> 0 <= n ->
  exists ret ret', dilate_n asrt shape f ks kv n false = Ok ret /\ dilate_n asrt (widened before after shape) f' ks kv n false = Ok ret' /\
    forall p q, placed before after shape p q -> (zn ret p <> 0 <-> zn ret' q <> 0).
Proof.
  intros asrt before after shape f f' ks kv n HD HD' HM HZ HK Hn.
  destruct (dilate_n_ok asrt _ _ _ _ _ _ HD Hn) as (ret & E & _ & R). destruct (dilate_n_ok asrt _ _ _ _ _ _ HD' Hn) as (ret' & E' & _ & R').
  exists ret, ret'. split; auto. split; auto. intros p q T. rewrite (R p), (R' q) by apply T.
  assert (HF : Forall (fun n => 0 < n) shape) by (apply pos_of; apply HD).
  apply (reaches_pad before after shape); auto.
  - intros x y (A & B & _); auto.
  - intros x y (A & B & _); auto.
  - intros x x' y y' Tx Ty. apply kernel_step_placed; auto.
  - intros x x' y y' (Px & Qx & Ex) (Py & Qy & Ey) (_ & _ & d & D & MD). right. split; auto. split; auto.
    destruct (pulled_step before after shape (coords (widened before after shape) x') d (coords (widened before after shape) y') HF HM) as (d' & F2 & M2); auto using coords_widened.
    exists d'. split; [eapply HK; eauto|]. rewrite Ex, Ey. exact M2.
Qed.

Lemma pad_dilate_more : forall asrt before after shape f f' ks kv n, dilatable_n false shape f ks kv -> dilatable_n false (widened before after shape) f' ks kv ->
  margins before after shape -> zero_padded before after shape f f' -> 0 <= n ->
  exists ret ret', dilate_n asrt shape f ks kv n false = Ok ret /\ dilate_n asrt (widened before after shape) f' ks kv n false = Ok ret' /\
    forall p q, placed before after shape p q -> zn ret p <> 0 -> zn ret' q <> 0.
Proof.
  intros asrt before after shape f f' ks kv n HD HD' HM (_ & _ & HC0 & HZ) Hn. pose proof (carried_zn _ _ _ HC0) as HC.
  destruct (dilate_n_ok asrt _ _ _ _ _ _ HD Hn) as (ret & E & _ & R). destruct (dilate_n_ok asrt _ _ _ _ _ _ HD' Hn) as (ret' & E' & _ & R').
  assert (HF : Forall (fun n => 0 < n) shape) by (apply pos_of; apply HD).
  assert (HN : Forall (fun n => 0 <= n) shape) by (eapply Forall_impl; [|exact HF]; intros; cbn in *; lia).
  exists ret, ret'. split; auto. split; auto. intros p q T. rewrite (R p), (R' q) by apply T. intros RR.
  eapply (reaches_map (kernel_step false shape ks kv) _ (fun x => pixel shape x /\ zn f x <> 0) (fun x => pixel (widened before after shape) x /\ zn f' x <> 0) (pixel shape) (placed before after shape)); eauto; try (intros x [Hx _]; exact Hx).
  - intros; apply placed_total; auto.
  - intros x y (A & B & _); auto.
  - intros x x' y y' Tx Ty. apply kernel_step_placed; auto.
  - intros x x' Tx [_ Nx]. split; [apply Tx|]. rewrite (HC _ _ Tx). auto.
  - intros x x' x'' T1 T2. eapply placed_fun; eauto.
Qed.

Lemma pad_default : forall asrt before after shape f f' n, (1 <= length shape <= 3)%nat -> image shape f -> margins before after shape -> zero_padded before after shape f f' ->
  (forall l, In l f -> 0 <= l < 2 ^ 62) -> (forall l, In l f' -> 0 <= l < 2 ^ 62) -> 0 <= n ->
  exists ret ret', dilate_default_n asrt shape f n false = Ok ret /\ dilate_default_n asrt (widened before after shape) f' n false = Ok ret' /\
    forall p q, placed before after shape p q -> (zn ret p <> 0 <-> zn ret' q <> 0).
Proof.
  intros asrt before after shape f f' n H13 HI HM HZ Hf Hf' Hn.
  assert (HF : Forall (fun n => 0 < n) shape) by (apply pos_of; apply HI).
  assert (HN : Forall (fun n => 0 <= n) shape) by (eapply Forall_impl; [|exact HF]; intros; cbn in *; lia).
  assert (HI' : image (widened before after shape) f') by (split; [apply widened_Forall; auto; apply HI|apply HZ]).
  pose proof (widened_length before after shape HM) as WL.
  destruct (Nat.eq_dec (length shape) 3) as [E3|N3].
  - destruct (dilate_default3 asrt shape f n false E3 HI Hf Hn) as (ret & E & _ & R).
    destruct (dilate_default3 asrt (widened before after shape) f' n false ltac:(lia) HI' Hf' Hn) as (ret' & E' & _ & R').
    exists ret, ret'. split; auto. split; auto. intros p q T. rewrite (R p), (R' q) by apply T.
    apply (reaches_pad before after shape); auto.
    + intros x y (A & B & _); auto.
    + intros x y (A & B & _); auto.
    + intros x x' y y' Tx Ty (_ & _ & d0 & d1 & d2 & D0 & D1 & D2 & D & M). split; [apply Tx|]. split; [apply Ty|]. exists d0, d1, d2. do 4 (split; [assumption|]).
      apply (placed_moved before after shape _ (coords shape x) (coords shape y)); auto using coords_length; [apply Tx|apply Ty].
    + intros x x' y y' (Px & Qx & Ex) (Py & Qy & Ey) (_ & _ & d0 & d1 & d2 & D0 & D1 & D2 & D & M). right. split; auto. split; auto.
      destruct (pulled_step before after shape (coords (widened before after shape) x') [d0; d1; d2] (coords (widened before after shape) y') HF HM) as (d' & F2 & M2); auto using coords_widened.
      destruct d' as [|e0 [|e1 [|e2 [|]]]]; repeat match goal with H : Forall2 _ _ _ |- _ => inversion H; clear H; subst end.
      exists e0, e1, e2. rewrite Ex, Ey. split; [lia|]. split; [lia|]. split; [lia|]. split; [lia|exact M2].
  - destruct (dilate_default_n_ok asrt shape f n false ltac:(lia) HI Hf Hn) as (ret & E & _ & R).
    destruct (dilate_default_n_ok asrt (widened before after shape) f' n false ltac:(lia) HI' Hf' Hn) as (ret' & E' & _ & R').
    exists ret, ret'. split; auto. split; auto. intros p q T. rewrite (R p), (R' q) by apply T.
    apply (reaches_pad before after shape); auto.
    + intros x y (A & B & _); auto.
    + intros x y (A & B & _); auto.
    + intros x x' y y' Tx Ty. apply face_neighbour_placed; auto. discriminate.
    + intros x x' y y' (Px & Qx & Ex) (Py & Qy & Ey) (_ & _ & F).
      destruct (pulled_face before after shape _ _ HF HM (coords_widened _ _ _ _ HM) (coords_widened _ _ _ _ HM) F) as [EQ|F'].
      * left. apply (coords_inj shape); auto. rewrite Ex, Ey. exact EQ.
      * right. split; auto. split; auto. rewrite Ex, Ey. exact F'.
Qed.

(** ** Statistics *)

Lemma sum_placed : forall before after shape F G, margins before after shape -> Forall (fun n => 0 <= n) shape ->
  (forall q, in_margin before after shape q -> G q = 0%Qc) -> (forall p q, placed before after shape p q -> F p = G q) ->
  sum_over (pixels (widened before after shape)) G = sum_over (pixels shape) F.
Proof.
  intros before after shape F G HM HN HZ HE.
  destruct (forall2_total (placed before after shape) (pixels shape)) as (l' & Hl).
  { intros x Hx. apply placed_total; auto. apply zrange_In in Hx. exact Hx. }
  rewrite (sum_forall2 _ F G _ _ Hl HE).
  assert (ND : NoDup l') by (eapply forall2_nodup; eauto; [intros; eapply placed_inj; eauto|apply zrange_NoDup]).
  set (inb := fun q => if in_dec Z.eq_dec q l' then true else false).
  assert (PL : forall q, In q l' -> exists p, placed before after shape p q).
  { intros q Hin. clear -Hl Hin. induction Hl; [destruct Hin|]. destruct Hin as [->|Hin]; eauto. }
  assert (PM : Permutation (filter inb (pixels (widened before after shape))) l').
  { apply NoDup_Permutation; auto; [apply NoDup_filter; apply zrange_NoDup|]. intros q. rewrite filter_In. unfold inb. split.
    - intros [_ H]. destruct (in_dec Z.eq_dec q l'); [auto|discriminate].
    - intros H. split; [|destruct (in_dec Z.eq_dec q l'); [auto|contradiction]]. destruct (PL q H) as (p & T). apply zrange_In. apply T. }
  rewrite <- (sum_perm _ _ _ G PM), sum_filter. apply sum_ext. intros q Hq. unfold inb. destruct (in_dec Z.eq_dec q l') as [|NI]; auto.
  apply HZ. apply zrange_In in Hq. split; [exact Hq|]. intros p T. apply NI.
  assert (Hp : In p (pixels shape)) by (apply zrange_In; apply T).
  clear -Hl Hp T HM HN. induction Hl as [|a b l m H Hl IH]; [destruct Hp|]. destruct Hp as [->|Hp]; [left; eapply placed_fun; eauto|right; auto].
Qed.

Definition mask_of (shape : list Z) (m : option (img Z)) : img Z := match m with Some x => x | None => zeros shape end.

Lemma around_terms : forall var before after shape c c' fm gm T1 T2 TN fm' gm' T1' T2' TN', Forall (fun n => 1 <= n) shape ->
  masked_around before after shape c c' -> terms var c = (fm, gm, T1, T2, TN) -> terms var c' = (fm', gm', T1', T2', TN') ->
  pair_call shape c /\ pair_call (widened before after shape) c' /\ stat_of c' = stat_of c /\
  (forall p q, placed before after shape p q -> zn fm' q = zn fm p /\ zn gm' q = zn gm p) /\
  (forall p p' q q', placed before after shape p p' -> placed before after shape q q' ->
     T1 (p, q) = T1' (p', q') /\ T2 (p, q) = T2' (p', q') /\ TN (p, q) = TN' (p', q')) /\
  (forall q, in_margin before after shape q -> zn gm' q = 1) /\
  (forall p, in_margin before after shape p -> zn fm' p = 1 \/ forall q, T1' (p, q) = 0%Qc /\ T2' (p, q) = 0%Qc /\ TN' (p, q) = 0%Qc).
Proof.
  intros var before after shape c c' fm gm T1 T2 TN fm' gm' T1' T2' TN' HP H E E'.
  pose proof (zeros_mask shape HP) as ZM.
  assert (OM : forall m m', mask_padded before after shape m m' -> is_mask shape (mask_of shape m) /\ is_mask (widened before after shape) m' /\
    (forall p q, placed before after shape p q -> zn (i_vals m') q = zn (i_vals (mask_of shape m)) p) /\ (forall q, in_margin before after shape q -> zn (i_vals m') q = 1)).
  { intros m m' (M1 & M2 & M3 & M4). split; [destruct m; cbn [mask_of]; auto|]. split; auto. split; auto. intros p q T. rewrite (M3 p q T). destruct m; auto. cbn [mask_of zeros i_vals]. rewrite zn_repeat0. reflexivity. }
  destruct c, c'; cbn [masked_around] in H; try contradiction; cbn [terms] in E, E'; injection E as <- <- <- <- <-; injection E' as <- <- <- <- <-.
  - destruct masks0 as [[m1' m2']|]; [|contradiction]. cbn [mask2 fst snd] in *. destruct H as ((F & F' & CF) & (G & G' & CG) & M1 & M2). pose proof F as (EF & _).
    destruct (OM _ _ M1) as (A1 & A2 & A3 & A4). destruct (OM _ _ M2) as (B1 & B2 & B3 & B4).
    assert (X1 : fst (mask2 f masks) = mask_of shape (option_map fst masks)) by (destruct masks; cbn; rewrite ?EF; auto).
    assert (X2 : snd (mask2 f masks) = mask_of shape (option_map snd masks)) by (destruct masks; cbn; rewrite ?EF; auto).
    cbn [pair_call stat_of mask2 fst snd]. rewrite X1, X2. do 2 (split; [tauto|]). split; [reflexivity|]. split; [intros p q T; split; auto|]. split.
    + intros p p' q q' Tp Tq. cbn [fst snd]. rewrite (carried_qn _ _ _ CF _ _ Tp), (carried_qn _ _ _ CG _ _ Tq). auto.
    + split; auto.
  - destruct masks0 as [[m1' m2']|]; [|contradiction]. cbn [mask2 fst snd] in *. destruct H as ((F & F' & CF) & (G & G' & CG) & M1 & M2). pose proof F as (EF & _).
    destruct (OM _ _ M1) as (A1 & A2 & A3 & A4). destruct (OM _ _ M2) as (B1 & B2 & B3 & B4).
    assert (X1 : fst (mask2 f masks) = mask_of shape (option_map fst masks)) by (destruct masks; cbn; rewrite ?EF; auto).
    assert (X2 : snd (mask2 f masks) = mask_of shape (option_map snd masks)) by (destruct masks; cbn; rewrite ?EF; auto).
    cbn [pair_call stat_of mask2 fst snd]. rewrite X1, X2. do 2 (split; [tauto|]). split; [reflexivity|]. split; [intros p q T; split; auto|]. split.
    + intros p p' q q' Tp Tq. unfold same_label. cbn [fst snd]. rewrite (carried_zn _ _ _ CF _ _ Tp), (carried_zn _ _ _ CG _ _ Tq). auto.
    + split; auto.
  - destruct fmask0 as [m'|]; [|contradiction]. cbn [mask1] in *. destruct H as ((W & W' & CW) & (G & G' & CG) & M1 & WZ). pose proof W as (EF & _).
    destruct (OM _ _ M1) as (A1 & A2 & A3 & A4).
    assert (X1 : mask1 w fmask = mask_of shape fmask) by (destruct fmask; cbn; rewrite ?EF; auto).
    cbn [pair_call stat_of mask1]. rewrite X1. do 2 (split; [tauto|]). split; [reflexivity|]. split; [intros p q T; rewrite !zn_nil; split; auto|]. split.
    + intros p p' q q' Tp Tq. cbn [fst snd]. rewrite (carried_qn _ _ _ CW _ _ Tp), (carried_qn _ _ _ CG _ _ Tq). auto.
    + split; auto. intros p Hp. right. intros q. cbn [fst snd]. rewrite (WZ p Hp). repeat split; ring.
  - destruct fmask0 as [m'|]; [|contradiction]. cbn [mask1] in *. destruct H as ((F & F' & CF) & M1). pose proof F as (EF & _).
    destruct (OM _ _ M1) as (A1 & A2 & A3 & A4).
    assert (X1 : mask1 f fmask = mask_of shape fmask) by (destruct fmask; cbn; rewrite ?EF; auto).
    cbn [pair_call stat_of mask1]. rewrite X1. do 2 (split; [tauto|]). split; [reflexivity|]. split; [intros p q T; split; auto|]. split.
    + intros p p' q q' Tp Tq. unfold sqdiff. cbn [fst snd]. rewrite (carried_qn _ _ _ CF _ _ Tp), (carried_qn _ _ _ CF _ _ Tq). auto.
    + split; auto.
Qed.

Lemma pad_two_point : forall asrt var roi before after shape c c', shapes false roi shape -> margins before after shape -> masked_around before after shape c c' ->
  exists e e', fresh asrt roi false var c = Ok e /\ fresh asrt roi false var c' = Ok e' /\ forall r, pixel roi r -> same_at e r e' r.
Proof.
  intros asrt var roi before after shape c c' HS HM HC. assert (HP : Forall (fun n => 1 <= n) shape) by apply HS.
  assert (HN : Forall (fun n => 0 <= n) shape) by (eapply Forall_impl; [|exact HP]; intros; cbn in *; lia).
  assert (HS' : shapes false roi (widened before after shape)).
  { destruct HS as (S1 & S2 & S3 & S4 & S5). split; [rewrite widened_length; auto|]. split; [rewrite widened_length; auto|]. split; auto. split; [apply widened_Forall; auto|discriminate]. }
  destruct (terms var c) as [[[[fm gm] T1] T2] TN] eqn:E. destruct (terms var c') as [[[[fm' gm'] T1'] T2'] TN'] eqn:E'.
  destruct (around_terms var before after shape c c' _ _ _ _ _ _ _ _ _ _ HP HC E E') as (P & P' & ES & HZ & HE & MG & MF).
  destruct (pair_call_ok asrt false var roi shape c _ _ _ _ _ HS P E) as (e & Ee & S1 & V).
  destruct (pair_call_ok asrt false var roi (widened before after shape) c' _ _ _ _ _ HS' P' E') as (e' & Ee' & S1' & V').
  exists e, e'. split; auto. split; auto. intros r Hr. destruct (V r Hr) as (A1 & A2 & A3 & A4). destruct (V' r Hr) as (B1 & B2 & B3 & B4). cbv zeta in *.
  set (d := offset roi r) in *.
  assert (MV : forall p p' q q', placed before after shape p p' -> placed before after shape q q' ->
    movedb false shape (coords shape p) d (coords shape q) = movedb false (widened before after shape) (coords (widened before after shape) p') d (coords (widened before after shape) q')).
  { intros p p' q q' Tp Tq. apply bool_iff. rewrite !movedb_iff. apply (placed_moved before after shape); auto using coords_length; [apply Tp|apply Tq]. }
  assert (SUM : forall F G, (forall p p' q q', placed before after shape p p' -> placed before after shape q q' -> F (p, q) = G (p', q')) ->
     (forall p, in_margin before after shape p -> zn fm' p = 1 \/ forall q, G (p, q) = 0%Qc) ->
     sum_over (filter (seen (widened before after shape) fm' gm' d) (pairs false (widened before after shape) d)) G = sum_over (filter (seen shape fm gm d) (pairs false shape d)) F).
  { intros F G HFG HG0. rewrite !sum_filter. unfold pairs. rewrite !sum_filter, !sum_prod. cbn [fst snd].
    apply (sum_placed before after shape); auto.
    - intros p Hp. rewrite (sum_ext _ _ _ (fun _ => 0%Qc)); [apply sum_zero|]. intros q _. unfold seen. cbn [fst snd].
      destruct (movedb _ _ _ _ _); [|reflexivity]. destruct (HG0 p Hp) as [->|Z0]; [reflexivity|]. rewrite Z0. destruct (_ && _); reflexivity.
    - intros p p' Tp. symmetry. apply (sum_placed before after shape); auto.
      + intros q Hq. unfold seen. cbn [fst snd]. destruct (movedb _ _ _ _ _); [|reflexivity]. rewrite (MG q Hq). cbn [negb orb Z.eqb]. rewrite andb_false_r. reflexivity.
      + intros q q' Tq. rewrite <- (MV p p' q q' Tp Tq), <- (HFG p p' q q' Tp Tq). unfold seen. cbn [fst snd]. rewrite <- (MV p p' q q' Tp Tq).
        destruct (HZ _ _ Tp) as [-> _]. destruct (HZ _ _ Tq) as [_ ->]. reflexivity. }
  unfold same_at.
  assert (X1 : first_at e' r = first_at e r) by (rewrite A1, B1; apply SUM; [intros; apply HE; auto|intros p Hp; destruct (MF p Hp) as [Z0|Z0]; [auto|right; intros; apply Z0]]).
  assert (X2 : second_at e' r = second_at e r) by (rewrite A2, B2; apply SUM; [intros; apply HE; auto|intros p Hp; destruct (MF p Hp) as [Z0|Z0]; [auto|right; intros; apply Z0]]).
  assert (X3 : norm_at e' r = norm_at e r) by (rewrite A3, B3; apply SUM; [intros; apply HE; auto|intros p Hp; destruct (MF p Hp) as [Z0|Z0]; [auto|right; intros; apply Z0]]).
  split; auto. split; auto. split; auto. rewrite A4, B4, X1, X3, ES. reflexivity.
Qed.

(** ** Small images, pixel by pixel *)

Lemma below : forall n p, 0 <= p < Z.of_nat n -> In p (map Z.of_nat (seq 0 n)).
Proof. intros n p H. apply in_map_iff. exists (Z.to_nat p). split; [lia|]. apply in_seq. lia. Qed.

Ltac pixels_of n H := let K := fresh in assert (K := below n _ H); clear H; cbv in K; repeat (destruct K as [<-|K]); try contradiction.

Ltac carried_cases n m := let p := fresh in let q := fresh in let P := fresh in let Q := fresh in let M := fresh in
  intros p q (P & Q & M); change (0 <= p < Z.of_nat n) in P; change (0 <= q < Z.of_nat m) in Q; pixels_of n P; pixels_of m Q; cbv in M; first [reflexivity | exfalso; intuition discriminate].

Ltac is_placed := unfold placed, pixel; split; [vm_compute; split; [discriminate|reflexivity]|]; split; [vm_compute; split; [discriminate|reflexivity]|]; vm_compute; repeat split; reflexivity.

Ltac margin_cases m := let q := fresh in let Q := fresh in let N := fresh in
  intros q (Q & N); change (0 <= q < Z.of_nat m) in Q; pixels_of m Q;
  first [reflexivity | exfalso; first [apply (N 0); is_placed | apply (N 1); is_placed | apply (N 2); is_placed | apply (N 3); is_placed]].

Lemma pad_dilate_far : exists before after shape f f' ks kv n ret ret' p q, dilatable_n false shape f ks kv /\ dilatable_n false (widened before after shape) f' ks kv /\
  margins before after shape /\ zero_padded before after shape f f' /\ 0 <= n /\
  dilate_n true shape f ks kv n false = Ok ret /\ dilate_n true (widened before after shape) f' ks kv n false = Ok ret' /\
  placed before after shape p q /\ zn ret p = 0 /\ zn ret' q <> 0.
Proof.
  exists [0], [1], [2], [1;0], [1;0;0], [5], [0;1;1;0;1], 2. eexists _, _, 1, 1.
  assert (D : forall n f, 1 <= n -> lenZ f = n -> (forall l, In l f -> 0 <= l < 2 ^ 62) -> dilatable_n false [n] f [5] [0;1;1;0;1]).
  { intros n f Hn Hf Hl. split; [cbn; lia|]. split; [split; [repeat constructor; auto|cbn; lia]|]. split; [reflexivity|]. split; [split; [repeat constructor; lia|reflexivity]|].
    split; [intros k IN; cbn in IN; intuition lia|]. split; [discriminate|exact Hl]. }
  split; [apply D; [lia|reflexivity|intros l IN; cbn in IN; intuition lia]|]. split; [change (widened [0] [1] [2]) with [3]; apply D; [lia|reflexivity|intros l IN; cbn in IN; intuition lia]|].
  split; [split; [reflexivity|]; split; [reflexivity|]; split; repeat constructor; lia|].
  split. { split; [reflexivity|]. split; [reflexivity|]. split; [carried_cases 2%nat 3%nat|margin_cases 3%nat]. }
  split; [lia|]. split; [vm_compute; reflexivity|]. split; [vm_compute; reflexivity|]. split; [is_placed|]. split; [reflexivity|discriminate].
Qed.
