(** * LabellerPruneTop: histories that differ in their calls of prune only *)

From Coq Require Import ZArith List Bool Lia.
From Verif Require Import Base BaseLemmas Cluster SpecCluster ClusterInv ClusterAbs ClusterRefine ClusterRun ClusterGeom
  ClusterMain ClusterTop KernelProofs LabellerMoved SpecLabellerPrune LabellerPrune.
Import ListNotations.
Open Scope Z_scope.

Lemma run_from_iso : forall asrt g, wf g -> forall ops s s', Q (zprod (g_shape g)) s -> Q (zprod (g_shape g)) s' ->
  iso (zprod (g_shape g)) s s' -> Forall (legal (g_shape g)) ops ->
  exists s1 s1' outs outs', run_from asrt g s ops = Ok (s1, outs) /\ run_from asrt g s' (other_calls ops) = Ok (s1', outs') /\
    Q (zprod (g_shape g)) s1 /\ Q (zprod (g_shape g)) s1' /\ iso (zprod (g_shape g)) s1 s1' /\ returned ops outs = outs'.
Proof.
  intros asrt g HW. induction ops as [|o ops IH]; intros s s' HQ HQ' HS HL.
  - exists s, s', [], []. auto 10.
  - apply Forall_cons_iff in HL. destruct HL as [Ho HL].
    destruct (is_prune o) eqn:EP.
    + destruct o; try discriminate. destruct (prune_iso _ s HQ) as (s1 & E1 & Q1 & S1).
      destruct (IH s1 s') as (s2 & s2' & outs & outs' & R & R' & Q2 & Q2' & S2 & ER); auto.
      { apply iso_trans with s; auto. apply iso_sym. auto. }
      exists s2, s2', ([] :: outs), outs'. cbn [run_from step]. rewrite E1, !bind_Ok. rewrite R, bind_Ok. auto 10.
    + destruct (step_iso g _ HW eq_refl asrt s s' o HQ HQ' HS Ho) as (s1 & s1' & out & out' & E1 & E1' & Q1 & Q1' & S1 & ->).
      destruct (IH s1 s1') as (s2 & s2' & outs & outs' & R & R' & Q2 & Q2' & S2 & ER); auto.
      exists s2, s2', (out :: outs), (out :: outs'). unfold other_calls. cbn [filter returned]. rewrite EP. cbn [negb run_from].
      rewrite E1, E1', !bind_Ok. fold (other_calls ops). rewrite R, R', !bind_Ok. rewrite ER. auto 10.
Qed.

(** Two prunes of the same clusters in the same order: the same state. *)
Lemma prune_same : forall N s s', Q N s -> Q N s' -> iso N s s' -> exists t, prune s = Ok t /\ prune s' = Ok t.
Proof.
  intros N s s' HQ HQ' HS.
  destruct (prune_iso N s HQ) as (t & E & Qt & St). destruct (prune_iso N s' HQ') as (t' & E' & Qt' & St').
  assert (HT : iso N t t') by (apply iso_trans with s; [apply iso_sym; auto|apply iso_trans with s'; auto]).
  assert (HV : forall s t, Q N s -> Q N t -> prune s = Ok t ->
    forall v, 1 <= v < c_new t <-> v <> 0 /\ exists p, 0 <= p < N /\ zn (c_label t) p = v).
  { clear. intros s t HQ Qt E v. destruct (prune_ok N s HQ) as (t1 & E1 & _ & L1 & N1).
    assert (t1 = t) by congruence. subst t1. pose proof (iv_len _ _ (proj1 HQ)) as HL. rewrite N1. split.
    - intros Hv. split; [lia|]. destruct (rank_surj (c_label s) v ltac:(lia)) as (w & Hw & Ew).
      apply used_In in Hw. destruct Hw as [Hw _]. apply In_zn in Hw. destruct Hw as (p & Hp & Ep).
      exists p. split; [lia|]. rewrite L1, zn_map by auto. congruence.
    - intros (Hn & p & Hp & Ep). pose proof (iv_lab _ _ (proj1 Qt) p Hp). lia. }
  pose proof (HV s t HQ Qt E) as V. pose proof (HV s' t' HQ' Qt' E') as V'. clear HV.
  destruct HT as (_ & HB & HC).
  assert (O : forall p q, 0 <= p < N -> 0 <= q < N -> (zn (c_label t) p < zn (c_label t) q <-> zn (c_label t') p < zn (c_label t') q))
    by (intros p q Hp Hq; apply (HB (false, p) (false, q) Hp Hq)).
  assert (Z0 : forall p, 0 <= p < N -> (zn (c_label t) p = 0 <-> zn (c_label t') p = 0)) by (intros p Hp; apply (HC (false, p) Hp)).
  pose proof (iv_lab _ _ (proj1 Qt)) as B. pose proof (iv_lab _ _ (proj1 Qt')) as B'.
  assert (L : forall n p, 0 <= p < N -> zn (c_label t) p < Z.of_nat n -> zn (c_label t') p = zn (c_label t) p).
  { induction n as [|n IH]; intros p Hp Hn; [pose proof (B p Hp); lia|].
    destruct (Z.eq_dec (zn (c_label t) p) 0) as [E0|E0]; [pose proof (proj1 (Z0 p Hp) E0); lia|].
    assert (E0' : zn (c_label t') p <> 0) by (rewrite <- Z0; auto). pose proof (B p Hp). pose proof (B' p Hp).
    assert (zn (c_label t) p <= zn (c_label t') p).
    { destruct (Z.eq_dec (zn (c_label t) p) 1) as [|N1]; [lia|].
      destruct (proj1 (V (zn (c_label t) p - 1)) ltac:(lia)) as (_ & q & Hq & Eq).
      pose proof (IH q Hq ltac:(lia)). pose proof (proj1 (O q p Hq Hp) ltac:(lia)). lia. }
    destruct (Z.eq_dec (zn (c_label t') p) (zn (c_label t) p)) as [|Hne]; auto. exfalso.
    destruct (proj1 (V' (zn (c_label t) p)) ltac:(lia)) as (_ & q & Hq & Eq).
    pose proof (proj2 (O q p Hq Hp) ltac:(lia)). pose proof (IH q Hq ltac:(lia)). lia. }
  assert (EL : c_label t' = c_label t).
  { pose proof (iv_len _ _ (proj1 Qt)). pose proof (iv_len _ _ (proj1 Qt')).
    apply list_ext_zn; [unfold lenZ in *; lia|]. intros i Hi. apply (L (Z.to_nat (1 + zn (c_label t) i))); [lia|]. pose proof (B i ltac:(lia)). lia. }
  assert (EN : c_new t' = c_new t).
  { pose proof (iv_new _ _ (proj1 Qt)). pose proof (iv_new _ _ (proj1 Qt')).
    assert (W : forall v, 1 <= v < c_new t <-> 1 <= v < c_new t') by (intros v; rewrite V, V', EL; tauto).
    pose proof (W (c_new t - 1)). pose proof (W (c_new t' - 1)). lia. }
  assert (ID : forall t, Q N t -> (forall v, 1 <= v < c_new t <-> v <> 0 /\ exists p, 0 <= p < N /\ zn (c_label t) p = v) ->
    forall i, 0 <= i <= N -> zn (c_renum t) i = i).
  { clear. intros t [HI H0] V i Hi. destruct (iv_nm0 _ _ HI H0) as [_ R].
    destruct (Z.eq_dec i 0) as [->|]; [apply (iv_r0 _ _ HI)|].
    destruct (Z_lt_le_dec i (c_new t)) as [H|H]; [|apply (iv_fresh _ _ HI); lia].
    destruct (proj1 (V i) ltac:(lia)) as (_ & p & Hp & <-). apply R. auto. }
  assert (ER : c_renum t' = c_renum t).
  { pose proof (iv_rlen _ _ (proj1 Qt)). pose proof (iv_rlen _ _ (proj1 Qt')).
    apply list_ext_zn; [unfold lenZ in *; lia|]. intros i Hi. rewrite (ID t Qt V) by lia. rewrite (ID t' Qt' V') by lia. auto. }
  assert (EX : c_next t' = c_next t).
  { pose proof (iv_nlen _ _ (proj1 Qt)). pose proof (iv_nlen _ _ (proj1 Qt')).
    destruct (iv_nm0 _ _ (proj1 Qt) (proj2 Qt)) as [X _]. destruct (iv_nm0 _ _ (proj1 Qt') (proj2 Qt')) as [X' _].
    apply list_ext_zn; [unfold lenZ in *; lia|]. intros i Hi. rewrite X, X' by lia. auto. }
  exists t. split; auto. rewrite E'. f_equal. pose proof (proj2 Qt) as M. pose proof (proj2 Qt') as M'.
  destruct t, t'. cbn in *. congruence.
Qed.

Lemma same_but_prunes : forall asrt g ops ops', wf g -> Forall (legal (g_shape g)) ops -> Forall (legal (g_shape g)) ops' ->
  other_calls ops = other_calls ops' ->
  exists s s' outs outs' t, run asrt g ops = Ok (s, outs) /\ run asrt g ops' = Ok (s', outs') /\
    returned ops outs = returned ops' outs' /\
    (forall p, pixel (g_shape g) p -> (zn (c_label s) p = 0 <-> zn (c_label s') p = 0)) /\
    (forall p q, pixel (g_shape g) p -> pixel (g_shape g) q ->
       (zn (c_label s) p < zn (c_label s) q <-> zn (c_label s') p < zn (c_label s') q)) /\
    prune s = Ok t /\ prune s' = Ok t.
Proof.
  intros asrt g ops ops' HW Hl Hl' EO. pose proof (Q_init g HW) as QI.
  destruct (run_from_iso asrt g HW ops (init g) (init g) QI QI (iso_refl _ _) Hl) as (s & u & outs & uo & R & U & Qs & Qu & S & E).
  destruct (run_from_iso asrt g HW ops' (init g) (init g) QI QI (iso_refl _ _) Hl') as (s' & u' & outs' & uo' & R' & U' & Qs' & Qu' & S' & E').
  rewrite EO, U' in U. assert (u = u' /\ uo = uo') as [-> ->] by (split; congruence).
  assert (SS : iso (zprod (g_shape g)) s s') by (apply iso_trans with u'; auto; apply iso_sym; auto).
  destruct (prune_same _ s s' Qs Qs' SS) as (t & P & P'). destruct SS as (_ & HB & HC).
  exists s, s', outs, outs', t. split; auto. split; auto. split; [congruence|].
  split; [intros p Hp; apply (HC (false, p) Hp)|]. split; [intros p q Hp Hq; apply (HB (false, p) (false, q) Hp Hq)|]. auto.
Qed.

Lemma default_but_prunes : forall asrt shape per ops ops', good_shape shape -> (length shape <= 3)%nat ->
  Forall (legal shape) ops -> Forall (legal shape) ops' -> other_calls ops = other_calls ops' ->
  exists g s s' outs outs' t, make_default shape per = Ok g /\ run asrt g ops = Ok (s, outs) /\ run asrt g ops' = Ok (s', outs') /\
    returned ops outs = returned ops' outs' /\
    (forall p, pixel shape p -> (zn (c_label s) p = 0 <-> zn (c_label s') p = 0)) /\
    (forall p q, pixel shape p -> pixel shape q -> (zn (c_label s) p < zn (c_label s) q <-> zn (c_label s') p < zn (c_label s') q)) /\
    prune s = Ok t /\ prune s' = Ok t.
Proof.
  intros asrt shape per ops ops' HS HL H H' E. destruct (make_default_ok shape per HS HL) as (g & Eg & W & Es & _).
  rewrite <- Es in *. destruct (same_but_prunes asrt g ops ops' W H H' E) as (s & s' & outs & outs' & t & K).
  exists g, s, s', outs, outs', t. rewrite Es in *. auto.
Qed.

Lemma kernel_but_prunes : forall asrt shape per ks kv ops ops', good_shape shape -> good_kernel shape ks kv ->
  Forall (legal shape) ops -> Forall (legal shape) ops' -> other_calls ops = other_calls ops' ->
  exists g s s' outs outs' t, make_kernel asrt shape per ks kv = Ok g /\ run asrt g ops = Ok (s, outs) /\ run asrt g ops' = Ok (s', outs') /\
    returned ops outs = returned ops' outs' /\
    (forall p, pixel shape p -> (zn (c_label s) p = 0 <-> zn (c_label s') p = 0)) /\
    (forall p q, pixel shape p -> pixel shape q -> (zn (c_label s) p < zn (c_label s) q <-> zn (c_label s') p < zn (c_label s') q)) /\
    prune s = Ok t /\ prune s' = Ok t.
Proof.
  intros asrt shape per ks kv ops ops' HS HK H H' E. destruct (make_kernel_ok asrt shape per ks kv HS HK) as (g & Eg & W & Es & _).
  rewrite <- Es in H, H'. destruct (same_but_prunes asrt g ops ops' W H H' E) as (s & s' & outs & outs' & t & K).
  exists g, s, s', outs, outs', t. rewrite Es in K. auto.
Qed.
