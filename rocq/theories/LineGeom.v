(** * LineGeom: which pixels are on the [actual] and [full] paths (proofs only). *)

From Coq Require Import ZArith QArith Qabs List Bool Lia Lqa.
From Verif Require Import Base BaseLemmas Path SpecPath PathProofs LineProofs.
Import ListNotations.
Open Scope Z_scope.

Definition theta (d : dimn) (m : Z) : Q := inject_Z (2 * m + 1) * uu d.

Lemma iz : forall m k, (inject_Z (2 * m + k) == 2 * inject_Z m + inject_Z k)%Q.
Proof. intros. rewrite inject_Z_plus, inject_Z_mult. reflexivity. Qed.

Lemma theta_eq : forall d m, (theta d m == 2 * (inject_Z m * uu d) + uu d)%Q.
Proof. intros. unfold theta. rewrite iz. change (inject_Z 1) with 1%Q. ring. Qed.

Lemma slope_aa : forall d, (slope d == inject_Z (sign d) * inject_Z (aa d))%Q.
Proof.
  intros. unfold slope. rewrite <- inject_Z_mult. f_equiv.
  unfold sign, aa, vv. rewrite Z.mul_comm. symmetry. apply Z.abs_sgn.
Qed.

Lemma aa_pos : forall d, active d = true -> (0 < inject_Z (aa d))%Q.
Proof.
  intros d H. apply active_iff in H. change 0%Q with (inject_Z 0). rewrite <- Zlt_Qlt. unfold aa. lia.
Qed.

(** Different crossings are at least 1e-6 apart when the distances are small. *)
Lemma theta_gap : forall d d' m m', active d = true -> active d' = true -> aa d * aa d' <= 500000 ->
  (theta d' m' < theta d m)%Q -> (1 # 1000000 <= theta d m - theta d' m')%Q.
Proof.
  intros d d' m m' Ha Ha' HB HL.
  pose proof (uu_a d Ha) as U. pose proof (uu_a d' Ha') as U'. pose proof (uu_pos d Ha) as P. pose proof (uu_pos d' Ha') as P'.
  set (N := (2 * m + 1) * aa d' - (2 * m' + 1) * aa d).
  assert (PP : (0 < uu d * uu d')%Q) by (apply Qmult_lt_0_compat; auto).
  assert (E : (theta d m - theta d' m' == inject_Z N * (2 * (uu d * uu d')))%Q).
  { assert (EN : (inject_Z N == inject_Z (2 * m + 1) * inject_Z (aa d') - inject_Z (2 * m' + 1) * inject_Z (aa d))%Q).
    { rewrite <- !inject_Z_mult. unfold Qminus. rewrite <- inject_Z_opp, <- inject_Z_plus. reflexivity. }
    rewrite EN. unfold theta.
    transitivity (inject_Z (2 * m + 1) * uu d * (2 * (inject_Z (aa d') * uu d')) - inject_Z (2 * m' + 1) * uu d' * (2 * (inject_Z (aa d) * uu d)))%Q.
    - rewrite U, U'. ring.
    - ring. }
  assert (HN : 1 <= N).
  { destruct (Z_lt_le_dec N 1) as [X|X]; [exfalso|auto].
    assert ((inject_Z N * (2 * (uu d * uu d')) <= 0)%Q).
    { setoid_replace 0%Q with (inject_Z 0 * (2 * (uu d * uu d')))%Q by (change (inject_Z 0) with 0%Q; ring).
      apply Qmult_le_compat_r; [rewrite <- Zle_Qle; lia|lra]. }
    lra. }
  assert ((inject_Z 1 * (2 * (uu d * uu d')) <= inject_Z N * (2 * (uu d * uu d')))%Q).
  { apply Qmult_le_compat_r; [rewrite <- Zle_Qle; lia|lra]. }
  assert (HU : (inject_Z (aa d * aa d') * (uu d * uu d') == 1 # 4)%Q).
  { rewrite inject_Z_mult. transitivity ((inject_Z (aa d) * uu d) * (inject_Z (aa d') * uu d'))%Q; [ring|]. rewrite U, U'. reflexivity. }
  assert ((inject_Z (aa d * aa d') * (uu d * uu d') <= inject_Z 500000 * (uu d * uu d'))%Q).
  { apply Qmult_le_compat_r; [rewrite <- Zle_Qle; lia|lra]. }
  change (inject_Z 500000) with (500000 # 1)%Q in *. change (inject_Z 1) with 1%Q in *. lra.
Qed.

(** ** One axis *)

Definition good (T : Q) (d : dimn) : Prop :=
  (- (1 # 2) <= inject_Z (d_from d) + slope d * T - inject_Z (d_c d) <= 1 # 2)%Q.

Lemma touches_good : forall T l, Forall (good T) l -> touches (map d_from l) (to_l l) T (cindex l).
Proof.
  intros T l H. induction H as [|d l Hd H IH]; [exact I|]. cbn [map to_l cindex touches]. split; auto.
Qed.

Lemma good_inactive : forall T d, active d = false -> d_c d = d_from d -> good T d.
Proof.
  intros T d Ha Hc. unfold active in Ha. rewrite negb_false_iff, Z.eqb_eq in Ha. unfold good, slope.
  rewrite Ha, Hc. change (inject_Z 0) with 0%Q. lra.
Qed.

Lemma sgn_cases : forall d, active d = true -> (inject_Z (sign d) == 1)%Q /\ sign d = 1 \/ (inject_Z (sign d) == - (1))%Q /\ sign d = -1.
Proof.
  intros d H. apply active_iff in H. unfold sign. fold (vv d). destruct (Z.lt_trichotomy (vv d) 0) as [L|[E|L]]; [right|lia|left].
  - rewrite (Z.sgn_neg _ L). split; reflexivity.
  - rewrite (Z.sgn_pos _ L). split; reflexivity.
Qed.

Lemma good_active : forall T d m, active d = true -> d_c d = d_from d + sign d * m ->
  (theta d (m - 1) <= T <= theta d m)%Q -> good T d.
Proof.
  intros T d m Ha Hc HT. rewrite !theta_eq in HT. unfold good. rewrite Hc, slope_aa, inject_Z_plus, inject_Z_mult.
  pose proof (uu_a d Ha) as U. pose proof (aa_pos d Ha) as A.
  assert (E1 : (inject_Z (m - 1) == inject_Z m - 1)%Q) by (unfold Z.sub; rewrite inject_Z_plus; reflexivity).
  rewrite E1 in HT.
  assert (L : (inject_Z (aa d) * (2 * ((inject_Z m - 1) * uu d) + uu d) <= inject_Z (aa d) * T)%Q) by (apply Qmult_le_l; [auto|lra]).
  assert (R : (inject_Z (aa d) * T <= inject_Z (aa d) * (2 * (inject_Z m * uu d) + uu d))%Q) by (apply Qmult_le_l; [auto|lra]).
  assert (EL : (inject_Z (aa d) * (2 * ((inject_Z m - 1) * uu d) + uu d) == inject_Z m - (1 # 2))%Q).
  { transitivity ((inject_Z (aa d) * uu d) * (2 * inject_Z m - 1))%Q; [ring|]. rewrite U. ring. }
  assert (ER : (inject_Z (aa d) * (2 * (inject_Z m * uu d) + uu d) == inject_Z m + (1 # 2))%Q).
  { transitivity ((inject_Z (aa d) * uu d) * (2 * inject_Z m + 1))%Q; [ring|]. rewrite U. ring. }
  rewrite EL in L. rewrite ER in R.
  destruct (sgn_cases d Ha) as [[S _]|[S _]]; rewrite S; lra.
Qed.

(** A pixel whose inside is hit at a time between two crossings. *)
Lemma unique_active : forall T d m n, active d = true -> d_c d = d_from d + sign d * m ->
  (theta d (m - 1) <= T)%Q -> ((T < theta d m)%Q \/ (m = aa d /\ T <= 1)%Q) ->
  (- (1 # 2) < inject_Z (d_from d) + slope d * T - inject_Z n < 1 # 2)%Q -> n = d_c d.
Proof.
  intros T d m n Ha Hc H1 H2 Hn. rewrite theta_eq in H1. rewrite theta_eq in H2. rewrite Hc. rewrite slope_aa in Hn.
  pose proof (uu_a d Ha) as U. pose proof (aa_pos d Ha) as A.
  assert (E1 : (inject_Z (m - 1) == inject_Z m - 1)%Q) by (unfold Z.sub; rewrite inject_Z_plus; reflexivity).
  rewrite E1 in H1.
  assert (L : (inject_Z (aa d) * (2 * ((inject_Z m - 1) * uu d) + uu d) <= inject_Z (aa d) * T)%Q) by (apply Qmult_le_l; [auto|lra]).
  assert (EL : (inject_Z (aa d) * (2 * ((inject_Z m - 1) * uu d) + uu d) == inject_Z m - (1 # 2))%Q).
  { transitivity ((inject_Z (aa d) * uu d) * (2 * inject_Z m - 1))%Q; [ring|]. rewrite U. ring. }
  rewrite EL in L.
  assert (R : (inject_Z (aa d) * T < inject_Z m + (1 # 2))%Q).
  { destruct H2 as [H2|[-> H2]].
    - assert (R : (inject_Z (aa d) * T < inject_Z (aa d) * (2 * (inject_Z m * uu d) + uu d))%Q) by (apply Qmult_lt_l; [auto|lra]).
      assert (ER : (inject_Z (aa d) * (2 * (inject_Z m * uu d) + uu d) == inject_Z m + (1 # 2))%Q).
      { transitivity ((inject_Z (aa d) * uu d) * (2 * inject_Z m + 1))%Q; [ring|]. rewrite U. ring. }
      rewrite ER in R. auto.
    - assert ((inject_Z (aa d) * T <= inject_Z (aa d) * 1)%Q) by (apply Qmult_le_l; auto). lra. }
  set (aT := (inject_Z (aa d) * T)%Q) in *.
  assert (ET : (inject_Z (sign d) * inject_Z (aa d) * T == inject_Z (sign d) * aT)%Q) by (unfold aT; ring).
  rewrite ET in Hn.
  set (k := n - d_from d). assert (En : n = d_from d + k) by (unfold k; lia). rewrite En in Hn |- *. rewrite inject_Z_plus in Hn.
  f_equal.
  assert (B : forall x y, (inject_Z x < inject_Z y + 1)%Q -> x <= y).
  { intros x y H. change 1%Q with (inject_Z 1) in H. rewrite <- inject_Z_plus in H. rewrite <- Zlt_Qlt in H. lia. }
  destruct (sgn_cases d Ha) as [[S S']|[S S']]; rewrite S in Hn; rewrite S'.
  - assert (k <= m) by (apply B; lra). assert (m <= k) by (apply B; lra). lia.
  - assert (- k <= m) by (apply B; rewrite inject_Z_opp; lra). assert (m <= - k) by (apply B; rewrite inject_Z_opp; lra). lia.
Qed.

Lemma unique_inactive : forall T d n, active d = false -> d_c d = d_from d ->
  (- (1 # 2) < inject_Z (d_from d) + slope d * T - inject_Z n < 1 # 2)%Q -> n = d_c d.
Proof.
  intros T d n Ha Hc Hn. unfold active in Ha. rewrite negb_false_iff, Z.eqb_eq in Ha. unfold slope in Hn. rewrite Ha in Hn.
  rewrite Hc. change (inject_Z 0) with 0%Q in Hn.
  assert (B : forall x y, (inject_Z x < inject_Z y + 1)%Q -> x <= y).
  { intros x y H. change 1%Q with (inject_Z 1) in H. rewrite <- inject_Z_plus in H. rewrite <- Zlt_Qlt in H. lia. }
  assert (n <= d_from d) by (apply B; lra). assert (d_from d <= n) by (apply B; lra). lia.
Qed.

(** ** The state at the top of the loop *)

Definition tight (T : Q) (d : dimn) (m : Z) : Prop :=
  active d = true -> (theta d (m - 1) <= T)%Q /\ (T < theta d m)%Q.

Lemma ok_inactive : forall w tau d m, ok w tau d m -> active d = false -> d_c d = d_from d.
Proof.
  intros w tau d m [Hc Hm _ _ _] Ha. unfold active in Ha. rewrite negb_false_iff, Z.eqb_eq in Ha.
  rewrite Hc. unfold sign. rewrite Ha. cbn [Z.sgn]. lia.
Qed.

Lemma pierced_is_current : forall w tau t T l ms, Forall2 (ok w tau) l ms -> Forall2 (tight T) l ms -> (T <= t <= 1)%Q ->
  (forall d m, In (d, m) (combine l ms) -> active d = true -> (t < theta d m)%Q \/ m = aa d) ->
  forall c, pierces (map d_from l) (to_l l) t c -> c = cindex l.
Proof.
  intros w tau t T l ms H. induction H as [|d m l ms Hd H IH]; intros HT Ht HU c Hc.
  - destruct c; [reflexivity|destruct Hc].
  - inversion HT as [|? ? ? ? HTd HT']; subst. destruct c as [|n c]; [destruct Hc|]. cbn [map to_l pierces] in Hc. destruct Hc as [Hn Hc].
    cbn [cindex map]. f_equal.
    + destruct (active d) eqn:Ha.
      * destruct (HTd Ha) as [T1 T2]. apply (unique_active t d m n Ha (o_c _ _ _ _ Hd)); auto; [lra|].
        destruct (HU d m (or_introl eq_refl) Ha) as [X|X]; [auto|right; split; auto; apply Ht].
      * apply (unique_inactive t d n Ha (ok_inactive _ _ _ _ Hd Ha)). auto.
    + apply IH; auto. intros; apply HU; simpl; auto.
Qed.

Lemma cross_each_good : forall T tm todo done, Forall (good T) done -> Forall (good T) todo ->
  Forall (fun d => crosses tm d = true -> good T (cross d)) todo ->
  forall r, In r (cross_each tm done todo) -> touches (map d_from (done ++ todo)) (to_l (done ++ todo)) T r.
Proof.
  intros T tm todo. induction todo as [|d todo IH]; intros done H1 H2 H3 r Hr; [destruct Hr|].
  inversion H2 as [|? ? G2 G2']; subst. inversion H3 as [|? ? G3 G3']; subst. cbn [cross_each] in Hr.
  destruct (crosses tm d) eqn:E.
  - specialize (G3 eq_refl).
    assert (EF : map d_from (done ++ d :: todo) = map d_from (done ++ cross d :: todo)) by (rewrite !map_app; reflexivity).
    assert (ET : to_l (done ++ d :: todo) = to_l (done ++ cross d :: todo)) by (unfold to_l; rewrite !map_app; reflexivity).
    rewrite EF, ET. destruct Hr as [<-|Hr].
    + apply touches_good. apply Forall_app. split; auto.
    + assert (EA : done ++ cross d :: todo = (done ++ [cross d]) ++ todo) by (rewrite <- app_assoc; reflexivity). rewrite EA.
      apply IH; auto. apply Forall_app. split; auto.
  - assert (EA : done ++ d :: todo = (done ++ [d]) ++ todo) by (rewrite <- app_assoc; reflexivity). rewrite EA.
    apply IH; auto. apply Forall_app. split; auto.
Qed.

Lemma from_next : forall tm l, map d_from (next_l tm l) = map d_from l.
Proof.
  intros tm l. unfold next_l, cross_all. rewrite !map_map. apply map_ext. intros d. destruct (crosses tm d); reflexivity.
Qed.

Lemma theta_next : forall tm d m, theta (move tm (if crosses tm d then cross d else d)) m = theta d m.
Proof. intros. destruct (crosses tm d); reflexivity. Qed.

Lemma active_next : forall tm d, active (move tm (if crosses tm d then cross d else d)) = active d.
Proof. intros. destruct (crosses tm d); reflexivity. Qed.

(** A pixel is strictly inside between its two crossings. *)
Lemma inside_active : forall T d m, active d = true -> d_c d = d_from d + sign d * m ->
  (theta d (m - 1) < T < theta d m)%Q ->
  (- (1 # 2) < inject_Z (d_from d) + slope d * T - inject_Z (d_c d) < 1 # 2)%Q.
Proof.
  intros T d m Ha Hc HT. rewrite !theta_eq in HT. rewrite Hc, slope_aa, inject_Z_plus, inject_Z_mult.
  pose proof (uu_a d Ha) as U. pose proof (aa_pos d Ha) as A.
  assert (E1 : (inject_Z (m - 1) == inject_Z m - 1)%Q) by (unfold Z.sub; rewrite inject_Z_plus; reflexivity).
  rewrite E1 in HT.
  assert (L : (inject_Z (aa d) * (2 * ((inject_Z m - 1) * uu d) + uu d) < inject_Z (aa d) * T)%Q) by (apply Qmult_lt_l; [auto|lra]).
  assert (R : (inject_Z (aa d) * T < inject_Z (aa d) * (2 * (inject_Z m * uu d) + uu d))%Q) by (apply Qmult_lt_l; [auto|lra]).
  assert (EL : (inject_Z (aa d) * (2 * ((inject_Z m - 1) * uu d) + uu d) == inject_Z m - (1 # 2))%Q).
  { transitivity ((inject_Z (aa d) * uu d) * (2 * inject_Z m - 1))%Q; [ring|]. rewrite U. ring. }
  assert (ER : (inject_Z (aa d) * (2 * (inject_Z m * uu d) + uu d) == inject_Z m + (1 # 2))%Q).
  { transitivity ((inject_Z (aa d) * uu d) * (2 * inject_Z m + 1))%Q; [ring|]. rewrite U. ring. }
  rewrite EL in L. rewrite ER in R.
  destruct (sgn_cases d Ha) as [[S _]|[S _]]; rewrite S; lra.
Qed.

Lemma current_inside : forall w tau t T l ms, Forall2 (ok w tau) l ms -> Forall2 (tight T) l ms -> (T < t)%Q ->
  (forall d m, In (d, m) (combine l ms) -> active d = true -> (t < theta d m)%Q) ->
  pierces (map d_from l) (to_l l) t (cindex l).
Proof.
  intros w tau t T l ms H. induction H as [|d m l ms Hd H IH]; intros HT Ht HU; [exact I|].
  inversion HT as [|? ? ? ? HTd HT']; subst. cbn [map to_l cindex pierces]. split; [|apply IH; auto; intros; apply HU; simpl; auto].
  destruct (active d) eqn:Ha.
  - destruct (HTd Ha) as [T1 T2]. pose proof (HU d m (or_introl eq_refl) Ha).
    apply (inside_active t d m Ha (o_c _ _ _ _ Hd)). lra.
  - rewrite (ok_inactive _ _ _ _ Hd Ha). unfold active in Ha. rewrite negb_false_iff, Z.eqb_eq in Ha. unfold slope.
    rewrite Ha. change (inject_Z 0) with 0%Q. lra.
Qed.

Lemma end_inside : forall l, pierces (map d_from l) (to_l l) 1 (to_l l).
Proof.
  induction l as [|d l IH]; [exact I|]. cbn [map to_l pierces]. split; [|exact IH].
  unfold Z.sub. rewrite inject_Z_plus, inject_Z_opp. lra.
Qed.

(** Strictly increasing, from [a] on. *)
Fixpoint incr (a : Q) (ts : list Q) : Prop :=
  match ts with [] => True | t :: ts' => (a < t)%Q /\ incr t ts' end.

Lemma incr_weaken : forall ts a b, (b <= a)%Q -> incr a ts -> incr b ts.
Proof. intros [|t ts] a b H I; [exact I|]. destruct I. split; auto. lra. Qed.

Lemma line_geom : forall fl w fuel l ms tau T rows, Forall2 (ok w tau) l ms -> Forall2 (tight T) l ms -> (0 <= T <= 1)%Q ->
  (forall d, In d l -> aa d <= 1000000) -> (forall d d', In d l -> In d' l -> aa d * aa d' <= 500000) ->
  0 < remaining l ms -> line_loop fl fuel l = Ok rows ->
  (forall r, In r rows -> exists t, (0 <= t <= 1)%Q /\ touches (map d_from l) (to_l l) t r) /\
  (forall t c, (T <= t <= 1)%Q -> pierces (map d_from l) (to_l l) t c -> In c (cindex l :: rows)) /\
  (fl = false -> exists ts, incr T ts /\ Forall (fun t => t <= 1)%Q ts /\
     Forall2 (fun t r => pierces (map d_from l) (to_l l) t r) ts (cindex l :: rows)).
Proof.
  intros fl w. induction fuel as [|fuel IH]; intros l ms tau T rows HI HT HT01 Hb Hp Hr E; [discriminate|].
  cbn [line_loop] in E. destruct (tmin l) as [tm|] eqn:HM; [|discriminate]. fold (next_l tm l) in E.
  pose proof (remaining_ex _ _ _ _ HI Hr) as HEX.
  destruct (no_overshoot w tau l ms tm HI HM Hb HEX) as (HN & _).
  pose proof (next_ok w tau tm l ms HI HN) as HI'.
  assert (HC : forall d m, In (d, m) (combine l ms) -> ok w tau d m /\ tight T d m /\ In d l).
  { clear -HI HT. induction HI; intros d m Hd; [destruct Hd|]. inversion HT; subst. destruct Hd as [X|Hd].
    - injection X as <- <-. split; [|split]; simpl; auto.
    - destruct (IHHI ltac:(auto) _ _ Hd) as (? & ? & ?). split; [|split]; simpl; auto. }
  assert (HX : forall d, In d l -> exists m, In (d, m) (combine l ms)).
  { clear -HI. induction HI; intros d Hd; [destruct Hd|]. destruct Hd as [<-|Hd].
    - exists y. simpl; auto.
    - destruct (IHHI _ Hd) as (m & Hm). exists m. simpl; auto. }
  destruct HEX as (dj & mj & Hj & Hjlt). destruct (HC _ _ Hj) as (Oj & Tj & Ij).
  assert (Aj : active dj = true) by (apply active_iff; pose proof (o_m _ _ _ _ Oj); unfold aa in *; lia).
  destruct (tmin_spec l tm HM) as [(dm & Im & Am & Em) HMin].
  destruct (HX dm Im) as (mm & Hmm). destruct (HC _ _ Hmm) as (Om & Tm & _).
  set (Tn := theta dm mm).
  assert (HD : forall d m, In (d, m) (combine l ms) -> active d = true -> (dist d - tm == theta d m - Tn)%Q).
  { intros d m Hd Ha. rewrite Em. destruct (HC _ _ Hd) as (O & _ & _).
    rewrite (dist_ok _ _ _ _ O Ha), (dist_ok _ _ _ _ Om Am). unfold Tn, theta. ring. }
  assert (HTn : forall d m, In (d, m) (combine l ms) -> active d = true -> (Tn <= theta d m)%Q).
  { intros d m Hd Ha. destruct (HC _ _ Hd) as (O & _ & I). pose proof (HMin d I Ha). pose proof (HD d m Hd Ha). lra. }
  assert (HCR : forall d m, In (d, m) (combine l ms) -> (crosses tm d = true <-> active d = true /\ (theta d m == Tn)%Q)).
  { intros d m Hd. destruct (HC _ _ Hd) as (O & _ & I). rewrite (crosses_iff l tm d HM I). split; intros [Ha X]; (split; [auto|]).
    - pose proof (HTn d m Hd Ha) as L. destruct (Qlt_le_dec Tn (theta d m)) as [Y|Y]; [|lra].
      pose proof (theta_gap d dm m mm Ha Am (Hp d dm I Im) Y) as Gp. fold Tn in Gp. pose proof (HD d m Hd Ha). lra.
    - pose proof (HD d m Hd Ha). rewrite H, X. lra. }
  assert (HT1 : (T <= Tn <= 1)%Q).
  { split; [apply Qlt_le_weak; apply (Tm Am)|]. pose proof (HTn dj mj Hj Aj) as L.
    assert ((theta dj mj <= 1)%Q); [|lra]. rewrite theta_eq. pose proof (uu_a dj Aj). pose proof (uu_pos dj Aj).
    assert ((inject_Z mj * uu dj <= inject_Z (aa dj - 1) * uu dj)%Q) by (apply Qmult_le_compat_r; [rewrite <- Zle_Qle; lia|lra]).
    assert (E1 : (inject_Z (aa dj - 1) == inject_Z (aa dj) - 1)%Q) by (unfold Z.sub; rewrite inject_Z_plus; reflexivity).
    rewrite E1 in H1. assert (((inject_Z (aa dj) - 1) * uu dj == inject_Z (aa dj) * uu dj - uu dj)%Q) by ring. lra. }
  (* the state after this turn *)
  assert (HT' : Forall2 (tight Tn) (next_l tm l) (next_ms tm l ms)).
  { assert (G : forall l' ms', Forall2 (ok w tau) l' ms' -> (forall d m, In (d, m) (combine l' ms') -> In (d, m) (combine l ms)) ->
      Forall2 (tight Tn) (next_l tm l') (next_ms tm l' ms')).
    { intros l' ms' H. induction H as [|d m l' ms' Hd H IHl]; intros Hsub; [constructor|].
      rewrite next_l_cons. cbn [next_ms]. constructor; [|apply IHl; intros; apply Hsub; simpl; auto].
      unfold tight. rewrite active_next, !theta_next. intros Ha.
      assert (Hin : In (d, m) (combine l ms)) by (apply Hsub; simpl; auto).
      destruct (HC _ _ Hin) as (_ & Td & _). destruct (Td Ha) as [T1 T2].
      pose proof (HTn d m Hin Ha) as L. pose proof (uu_pos d Ha) as U. unfold next_m.
      destruct (crosses tm d) eqn:EC.
      - apply (HCR d m Hin) in EC. destruct EC as [_ EC]. replace (m + 1 - 1) with m by lia. split; [lra|].
        rewrite theta_eq in EC. rewrite theta_eq, inject_Z_plus. change (inject_Z 1) with 1%Q.
        assert (((inject_Z m + 1) * uu d == inject_Z m * uu d + uu d)%Q) by ring. lra.
      - split; [lra|]. destruct (Qlt_le_dec Tn (theta d m)) as [Y|Y]; [auto|exfalso].
        assert (crosses tm d = true); [|congruence]. apply (HCR d m Hin). split; auto. lra. }
    apply G; auto. }
  (* rows *)
  assert (HG : Forall (good Tn) l).
  { apply Forall_forall. intros d Hd. destruct (HX d Hd) as (m & Hm). destruct (HC _ _ Hm) as (O & Td & _).
    destruct (active d) eqn:Ha; [|apply good_inactive; auto; eapply ok_inactive; eauto].
    apply good_active with m; auto; [apply (o_c _ _ _ _ O)|]. destruct (Td Ha). pose proof (HTn d m Hm Ha). lra. }
  assert (HGc : Forall (fun d => crosses tm d = true -> good Tn (cross d)) l).
  { apply Forall_forall. intros d Hd Hc. destruct (HX d Hd) as (m & Hm). destruct (HC _ _ Hm) as (O & Td & _).
    apply (HCR d m Hm) in Hc. destruct Hc as [Ha Hc].
    apply good_active with (m + 1); [exact Ha| |].
    - cbn [cross d_c d_from]. change (sign (cross d)) with (sign d). rewrite (o_c _ _ _ _ O). lia.
    - change (theta (cross d)) with (theta d). replace (m + 1 - 1) with m by lia. split; [lra|].
      rewrite theta_eq in Hc. rewrite theta_eq, inject_Z_plus. change (inject_Z 1) with 1%Q. pose proof (uu_pos d Ha).
      assert (((inject_Z m + 1) * uu d == inject_Z m * uu d + uu d)%Q) by ring. lra. }
  assert (HGn : Forall (good Tn) (next_l tm l)).
  { apply Forall_forall. intros x Hx. unfold next_l, cross_all in Hx. rewrite map_map in Hx. apply in_map_iff in Hx.
    destruct Hx as (d & <- & Hd). rewrite Forall_forall in HG, HGc. destruct (crosses tm d) eqn:EC.
    - apply (HGc d Hd EC).
    - apply (HG d Hd). }
  set (rows1 := if fl then cross_each tm [] l else [cindex (next_l tm l)]) in *.
  assert (HR1 : forall r, In r rows1 -> exists t, (0 <= t <= 1)%Q /\ touches (map d_from l) (to_l l) t r).
  { intros r Hir. exists Tn. split; [lra|]. unfold rows1 in Hir. destruct fl.
    - apply (cross_each_good Tn tm l []) in Hir; auto.
    - destruct Hir as [<-|[]]. rewrite <- (from_next tm l), <- (to_next tm l). apply touches_good. auto. }
  assert (HCUR : forall t c, (T <= t < Tn)%Q -> pierces (map d_from l) (to_l l) t c -> c = cindex l).
  { intros t c Ht. apply (pierced_is_current w tau t T l ms HI HT); [lra|]. intros d m Hd Ha. left. pose proof (HTn d m Hd Ha). lra. }
  assert (HLast : In (cindex (next_l tm l)) (cindex l :: rows1)).
  { unfold rows1. destruct fl; [|simpl; auto]. destruct (full_rows w tau tm l ms [] HI HN) as (_ & F2 & _). cbn [app cindex map] in F2.
    cbn zeta in F2. fold (cindex l) in F2. fold (cindex (next_l tm l)) in F2. rewrite <- F2.
    assert (LI : forall (x : list Z) xs, In (last (x :: xs) []) (x :: xs)).
    { clear. intros x xs. revert x. induction xs as [|y xs IHx]; intros x; [simpl; auto|]. right. apply (IHx y). }
    apply LI. }
  assert (HTT : (T < Tn)%Q) by apply (Tm Am).
  assert (HIN : pierces (map d_from l) (to_l l) ((T + Tn) * (1 # 2)) (cindex l)).
  { apply (current_inside w tau _ T l ms HI HT); [lra|]. intros d m Hd Ha. pose proof (HTn d m Hd Ha). lra. }
  destruct (reached (next_l tm l)) eqn:ER.
  - injection E as <-. split; [exact HR1|]. split.
    2: { intros ->. exists [(T + Tn) * (1 # 2); 1]%Q. split; [cbn [incr]; repeat split; lra|]. split; [repeat constructor; lra|].
         unfold rows1. constructor; [exact HIN|]. constructor; [|constructor].
         rewrite (reached_to _ ER), to_next. apply end_inside. }
    intros t c Ht Hc.
    destruct (Qlt_le_dec t Tn) as [X|X]; [left; symmetry; apply HCUR with t; auto; lra|].
    replace c with (cindex (next_l tm l)); [exact HLast|]. symmetry.
    assert (HRZ : remaining (next_l tm l) (next_ms tm l ms) = 0) by (apply (reached_iff _ _ _ _ HI'); auto).
    apply (pierced_is_current w tm t Tn _ _ HI' HT'); [lra| |rewrite from_next, to_next; auto].
    intros d m Hd Ha. right.
    assert (G : forall l' ms', Forall2 (ok w tm) l' ms' -> remaining l' ms' = 0 -> forall d m, In (d, m) (combine l' ms') -> m = aa d).
    { clear. intros l' ms' H. induction H; intros HZ d m Hd; [destruct Hd|]. rewrite remaining_cons in HZ.
      pose proof (o_m _ _ _ _ H). pose proof (remaining_nonneg _ _ _ _ H0). destruct Hd as [X|Hd]; [injection X as <- <-; lia|].
      apply IHForall2; auto. lia. }
    eapply G; eauto.
  - apply bind_ok in E. destruct E as (rest & E & X). injection X as <-.
    assert (HNZ : remaining (next_l tm l) (next_ms tm l ms) <> 0).
    { intros Z0. rewrite <- (reached_iff _ _ _ _ HI') in Z0. congruence. }
    pose proof (remaining_nonneg _ _ _ _ HI') as HNN.
    assert (HA : forall x, In x (next_l tm l) -> exists d, In d l /\ aa x = aa d).
    { intros x Hx. unfold next_l, cross_all in Hx. rewrite map_map in Hx. apply in_map_iff in Hx.
      destruct Hx as (d & <- & Hd). exists d. rewrite aa_next. auto. }
    destruct (IH (next_l tm l) (next_ms tm l ms) tm Tn rest HI' HT') as (R1 & R2 & R3); auto; try lra; try lia.
    { intros x Hx. destruct (HA x Hx) as (d & Hd & ->). auto. }
    { intros x x' Hx Hx'. destruct (HA x Hx) as (d & Hd & ->). destruct (HA x' Hx') as (d' & Hd' & ->). auto. }
    rewrite from_next, to_next in *. split; [|split].
    + intros r Hir. apply in_app_iff in Hir. destruct Hir; auto.
    + intros t c Ht Hc. destruct (Qlt_le_dec t Tn) as [X|X]; [left; symmetry; apply HCUR with t; auto; lra|].
      destruct (R2 t c ltac:(lra) Hc) as [<-|Hin].
      * destruct HLast as [<-|Hl]; [left; auto|right; apply in_app_iff; auto].
      * right. apply in_app_iff. auto.
    + intros Hfl. destruct (R3 Hfl) as (ts & I1 & I2 & I3). exists (((T + Tn) * (1 # 2))%Q :: ts). split; [|split].
      * split; [lra|]. apply incr_weaken with Tn; auto. lra.
      * constructor; auto. lra.
      * constructor; [exact HIN|]. unfold rows1. rewrite Hfl. exact I3.
Qed.

Lemma line_pixels_order : forall fl fuel x0 x1, (1 <= length x0 <= 3)%nat -> length x1 = length x0 -> x0 <> x1 ->
  span x0 x1 <= 707 -> through_origin x0 x1 -> (Z.to_nat (manhattan x0 x1) <= fuel)%nat ->
  exists rows, line fl fuel x0 x1 = Ok rows /\
    (forall r, In r rows -> exists t, (0 <= t <= 1)%Q /\ touches x0 x1 t r) /\
    (forall t c, (0 <= t <= 1)%Q -> pierces x0 x1 t c -> In c rows) /\
    (fl = false -> exists ts, incr 0 ts /\ Forall (fun t => t <= 1)%Q ts /\ Forall2 (fun t r => pierces x0 x1 t r) ts rows).
Proof.
  intros fl fuel x0 x1 HL HL' HN HS HW Hf.
  destruct (line_ok fl fuel x0 x1 HL HL' HN ltac:(lia) HW Hf) as (rows & E & _). exists rows. split; auto.
  destruct HW as (w & HW). destruct (line_start x0 x1 HL HL' ltac:(lia)) as [E1 E2]. unfold line in E. rewrite E1, E2, bind_Ok in E.
  apply bind_ok in E. destruct E as (rest & E & X). injection X as <-.
  destruct (mks_facts w x0 x1 HL' HW) as (F1 & F2 & F3 & F4 & F5).
  assert (HT : Forall2 (tight 0) (mks x0 x1) (repeat 0 (length x0))).
  { clear -HL'. revert x1 HL'. induction x0 as [|p x0 IH]; intros [|q x1] HL; simpl in HL; try discriminate; [constructor|].
    cbn [mks length repeat]. constructor; [|apply IH; lia]. intros Ha. rewrite !theta_eq. pose proof (uu_pos _ Ha).
    change (inject_Z (0 - 1)) with (-(1))%Q. change (inject_Z 0) with 0%Q. split; lra. }
  assert (HB : forall d, In d (mks x0 x1) -> aa d <= 707) by (intros d Hd; apply mks_aa in Hd; lia).
  assert (HB0 : forall d, 0 <= aa d) by (intros; unfold aa; lia).
  destruct (line_geom fl w fuel _ _ 0%Q 0%Q rest F1 HT) as (R1 & R2 & R3); auto; try lra.
  - intros d Hd. specialize (HB d Hd). lia.
  - intros d d' Hd Hd'. pose proof (HB d Hd). pose proof (HB d' Hd'). pose proof (HB0 d). pose proof (HB0 d'). nia.
  - rewrite F5. apply manhattan_pos; auto.
  - rewrite F2, F3, F4 in *. split; [|split; [exact R2|exact R3]]. intros r [<-|Hir]; [|apply R1; auto].
    exists 0%Q. split; [lra|]. clear -HL'. revert x1 HL'. induction x0 as [|p x0 IH]; intros [|q x1] HL; simpl in HL; try discriminate; [exact I|].
    cbn [touches]. split; [|apply IH; lia]. lra.
Qed.

Lemma line_pixels : forall fl fuel x0 x1, (1 <= length x0 <= 3)%nat -> length x1 = length x0 -> x0 <> x1 ->
  span x0 x1 <= 707 -> through_origin x0 x1 -> (Z.to_nat (manhattan x0 x1) <= fuel)%nat ->
  exists rows, line fl fuel x0 x1 = Ok rows /\
    (forall r, In r rows -> exists t, (0 <= t <= 1)%Q /\ touches x0 x1 t r) /\
    (forall t c, (0 <= t <= 1)%Q -> pierces x0 x1 t c -> In c rows).
Proof.
  intros fl fuel x0 x1 HL HL' HN HS HW Hf. destruct (line_pixels_order fl fuel x0 x1 HL HL' HN HS HW Hf) as (rows & E & A & B & _).
  exists rows. auto.
Qed.
