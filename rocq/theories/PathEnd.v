(** * PathEnd: which [actual] and [full] paths end (proofs only). *)

From Coq Require Import ZArith QArith Qabs List Bool Lia Lqa.
From Verif Require Import Base BaseLemmas Path SpecPath SpecPathEnd PathProofs LineProofs LineGeom.
Import ListNotations.
Open Scope Z_scope.

(** Number of crossings so far. *)
Definition mm (d : dimn) : Z := sign d * (d_c d - d_from d).

(** Parameter of the line at the next crossing, and at crossing [k]. *)
Definition th (d : dimn) : Q := ((d_next d - inject_Z (d_from d)) / slope d)%Q.
Definition thk (d : dimn) (k : Z) : Q :=
  ((inject_Z (sign d) * (inject_Z k + (1 # 2)) - inject_Z (d_from d)) / slope d)%Q.

Definition inv (tau : Q) (d : dimn) : Prop :=
  (active d = false -> d_c d = d_to d) /\
  (active d = true -> 0 <= mm d /\
    (d_next d == inject_Z (sign d) * (inject_Z (mm d) + (1 # 2)))%Q /\
    (d_x d == inject_Z (d_from d) + slope d * tau)%Q).

Lemma slope_nz : forall d, active d = true -> ~ (slope d == 0)%Q.
Proof.
  intros d H E. unfold slope in E. change 0%Q with (inject_Z 0) in E. rewrite inject_Z_injective in E.
  apply active_iff in H. unfold vv in H. lia.
Qed.

Lemma sign_sq : forall d, active d = true -> sign d * sign d = 1.
Proof. intros d H. apply active_iff in H. unfold sign, vv in *. destruct (Z.sgn_spec (d_to d - d_from d)) as [[? ->]|[[? ?]|[? ->]]]; lia. Qed.

Lemma th_thk : forall tau d, inv tau d -> active d = true -> (th d == thk d (mm d))%Q.
Proof. intros tau d [_ H] Ha. destruct (H Ha) as (_ & E & _). unfold th, thk. rewrite E. reflexivity. Qed.

Lemma dist_th : forall tau d, inv tau d -> active d = true -> (dist d == th d - tau)%Q.
Proof.
  intros tau d [_ H] Ha. destruct (H Ha) as (_ & _ & E). unfold dist, th. rewrite E. field. apply slope_nz; auto.
Qed.

Lemma thk_a : forall d k, active d = true ->
  (thk d k * inject_Z (aa d) == inject_Z k + (1 # 2) - inject_Z (sign d) * inject_Z (d_from d))%Q.
Proof.
  intros d k H. unfold thk. pose proof (slope_nz d H) as NZ.
  destruct (sgn_cases d H) as [[E _]|[E _]]; pose proof (slope_aa d) as SA; rewrite E in *.
  - assert (A : (inject_Z (aa d) == slope d)%Q) by (rewrite SA; ring). rewrite A. field. auto.
  - assert (A : (inject_Z (aa d) == - slope d)%Q) by (rewrite SA; ring). rewrite A. field. auto.
Qed.

Lemma thk_lt : forall d k k', active d = true -> k < k' -> (thk d k < thk d k')%Q.
Proof.
  intros d k k' H L. pose proof (aa_pos d H) as P. apply Qmult_lt_r with (z := inject_Z (aa d)); auto.
  rewrite !thk_a by auto. rewrite Zlt_Qlt in L. lra.
Qed.

Lemma thk_le : forall d k k', active d = true -> k <= k' -> (thk d k <= thk d k')%Q.
Proof.
  intros d k k' H L. destruct (Z.eq_dec k k') as [->|N]; [apply Qle_refl|]. apply Qlt_le_weak, thk_lt; auto. lia.
Qed.

Lemma thk_shift : forall d k, active d = true -> (thk d (k + aa d) == thk d k + 1)%Q.
Proof.
  intros d k H. pose proof (aa_pos d H) as P. apply Qmult_inj_r with (inject_Z (aa d)); [lra|].
  transitivity (thk d k * inject_Z (aa d) + inject_Z (aa d))%Q; [|ring].
  rewrite !thk_a by auto. rewrite inject_Z_plus. ring.
Qed.

(** Different crossings are at least 1e-6 apart when the distances are small. *)
Lemma thk_gap : forall d d' k k', active d = true -> active d' = true -> aa d * aa d' <= 500000 ->
  (thk d' k' < thk d k)%Q -> (1 # 1000000 <= thk d k - thk d' k')%Q.
Proof.
  intros d d' k k' Ha Ha' HB HL.
  pose proof (aa_pos d Ha) as P. pose proof (aa_pos d' Ha') as P'.
  set (N := (2 * k + 1 - 2 * (sign d * d_from d)) * aa d' - (2 * k' + 1 - 2 * (sign d' * d_from d')) * aa d).
  set (PP := inject_Z (aa d * aa d')).
  assert (EP : (PP == inject_Z (aa d) * inject_Z (aa d'))%Q) by (unfold PP; rewrite inject_Z_mult; reflexivity).
  assert (PPP : (0 < PP)%Q) by (rewrite EP; apply Qmult_lt_0_compat; auto).
  assert (E : ((thk d k - thk d' k') * PP == inject_Z N * (1 # 2))%Q).
  { rewrite EP.
    transitivity ((thk d k * inject_Z (aa d)) * inject_Z (aa d') - (thk d' k' * inject_Z (aa d')) * inject_Z (aa d))%Q; [ring|].
    rewrite !thk_a by auto. unfold N. unfold Z.sub.
    repeat (rewrite ?inject_Z_plus, ?inject_Z_mult, ?inject_Z_opp). change (inject_Z 2) with 2%Q. change (inject_Z 1) with 1%Q. ring. }
  assert (HN : 1 <= N).
  { destruct (Z_lt_le_dec N 1) as [X|X]; [exfalso|auto].
    assert (inject_Z N <= inject_Z 0)%Q by (rewrite <- Zle_Qle; lia). change (inject_Z 0) with 0%Q in *.
    assert (0 < (thk d k - thk d' k') * PP)%Q by (apply Qmult_lt_0_compat; lra). lra. }
  assert (inject_Z 1 <= inject_Z N)%Q by (rewrite <- Zle_Qle; lia). change (inject_Z 1) with 1%Q in *.
  assert (PP <= inject_Z 500000)%Q by (unfold PP; rewrite <- Zle_Qle; auto). change (inject_Z 500000) with (500000 # 1)%Q in *.
  apply Qnot_lt_le. intros L.
  assert ((thk d k - thk d' k') * PP < (1 # 1000000) * PP)%Q by (apply Qmult_lt_r; auto). lra.
Qed.

(** ** One turn *)

Definition nx (tm : Q) (d : dimn) : dimn := move tm (if crosses tm d then cross d else d).

Lemma next_map : forall tm l, next_l tm l = map (nx tm) l.
Proof. intros. unfold next_l, cross_all. rewrite map_map. reflexivity. Qed.

Lemma nx_active : forall tm d, active (nx tm d) = active d.
Proof. intros. unfold nx. destruct (crosses tm d); reflexivity. Qed.
Lemma nx_aa : forall tm d, aa (nx tm d) = aa d.
Proof. intros. unfold nx. destruct (crosses tm d); reflexivity. Qed.
Lemma nx_thk : forall tm d k, thk (nx tm d) k = thk d k.
Proof. intros. unfold nx. destruct (crosses tm d); reflexivity. Qed.
Lemma nx_from : forall tm d, d_from (nx tm d) = d_from d.
Proof. intros. unfold nx. destruct (crosses tm d); reflexivity. Qed.
Lemma nx_to : forall tm d, d_to (nx tm d) = d_to d.
Proof. intros. unfold nx. destruct (crosses tm d); reflexivity. Qed.
Lemma nx_slope : forall tm d, slope (nx tm d) = slope d.
Proof. intros. unfold nx. destruct (crosses tm d); reflexivity. Qed.
Lemma nx_sign : forall tm d, sign (nx tm d) = sign d.
Proof. intros. unfold nx. destruct (crosses tm d); reflexivity. Qed.

Lemma crosses_active : forall tm d, crosses tm d = true -> active d = true.
Proof. intros tm d H. unfold crosses in H. apply andb_true_iff in H. tauto. Qed.

Lemma nx_mm : forall tm d, mm (nx tm d) = if crosses tm d then mm d + 1 else mm d.
Proof.
  intros. unfold nx. destruct (crosses tm d) eqn:E; [|reflexivity]. apply crosses_active in E. pose proof (sign_sq d E).
  unfold mm. change (sign (move tm (cross d))) with (sign d). cbn [move cross d_c d_from]. lia.
Qed.

Lemma nx_inv : forall tau tm d, inv tau d -> inv tm (nx tm d).
Proof.
  intros tau tm d [H1 H2]. split; rewrite nx_active.
  - intros Ha. specialize (H1 Ha). unfold nx. destruct (crosses tm d) eqn:E; [apply crosses_active in E; congruence|exact H1].
  - intros Ha. destruct (H2 Ha) as (M & E & _). rewrite nx_mm, nx_sign, nx_slope, nx_from. unfold nx. destruct (crosses tm d) eqn:EC.
    + split; [lia|]. split; [|reflexivity]. cbn [move cross d_next]. rewrite E, inject_Z_plus. change (inject_Z 1) with 1%Q. ring.
    + split; [lia|]. split; [exact E|reflexivity].
Qed.

Lemma next_inv : forall tau tm l, Forall (inv tau) l -> Forall (inv tm) (next_l tm l).
Proof.
  intros tau tm l H. rewrite next_map. apply Forall_forall. intros x Hx. apply in_map_iff in Hx. destruct Hx as (d & <- & Hd).
  rewrite Forall_forall in H. apply nx_inv with tau. auto.
Qed.

Definition small (l : list dimn) : Prop := forall d d', In d l -> In d' l -> aa d * aa d' <= 500000.

Lemma next_small : forall tm l, small l -> small (next_l tm l).
Proof.
  intros tm l H x y Hx Hy. rewrite next_map in *. apply in_map_iff in Hx, Hy. destruct Hx as (d & <- & Hd). destruct Hy as (d' & <- & Hd').
  rewrite !nx_aa. auto.
Qed.

(** The crossings of one turn are those with the smallest parameter. *)
Lemma turn : forall tau l tm, Forall (inv tau) l -> small l -> tmin l = Some tm ->
  (exists d, In d l /\ active d = true /\ crosses tm d = true) /\
  (forall d, In d l -> active d = true -> (tm + tau <= th d)%Q) /\
  (forall d, In d l -> (crosses tm d = true <-> active d = true /\ (th d == tm + tau)%Q)).
Proof.
  intros tau l tm HI HS HT. rewrite Forall_forall in HI. pose proof (tmin_spec l tm HT) as [(d0 & H0 & A0 & E0) HM].
  assert (D : forall d, In d l -> active d = true -> (dist d == th d - tau)%Q) by (intros; apply dist_th; auto).
  assert (LE : forall d, In d l -> active d = true -> (tm + tau <= th d)%Q).
  { intros d Hd Ha. specialize (HM d Hd Ha). rewrite (D d Hd Ha) in HM. lra. }
  assert (E0' : (th d0 == tm + tau)%Q) by (rewrite E0, (D d0 H0 A0); ring).
  assert (IFF : forall d, In d l -> (crosses tm d = true <-> active d = true /\ (th d == tm + tau)%Q)).
  { intros d Hd. rewrite (crosses_iff l tm d HT Hd). split; intros [Ha X]; (split; [auto|]).
    - rewrite (D d Hd Ha) in X. destruct (Qlt_le_dec (th d0) (th d)) as [L|L].
      + exfalso. rewrite (th_thk tau d), (th_thk tau d0) in L by auto. apply thk_gap in L; auto.
        rewrite <- (th_thk tau d), <- (th_thk tau d0) in L by auto. lra.
      + specialize (LE d Hd Ha). lra.
    - rewrite (D d Hd Ha), X. lra. }
  split; [|split]; auto. exists d0. split; [|split]; auto. apply IFF; auto.
Qed.

(** ** Paths that end *)

(** [T - 1] is the parameter at which the line is inside the pixel of the origin. *)
Definition through (t : Q) (d : dimn) : Prop := active d = true ->
  (thk d (-1) < t < thk d 0)%Q.

Lemma through_end : forall t d k, through t d -> active d = true ->
  (k < aa d -> (thk d k < t + 1)%Q) /\ (aa d <= k -> (t + 1 < thk d k)%Q).
Proof.
  intros t d k H Ha. destruct (H Ha) as [L U]. split; intros Hk.
  - pose proof (thk_le d k (-1 + aa d) Ha ltac:(lia)) as X. rewrite thk_shift in X by auto. lra.
  - pose proof (thk_le d (0 + aa d) k Ha ltac:(lia)) as X. rewrite thk_shift in X by auto. lra.
Qed.

Lemma nx_through : forall t tm d, through t d -> through t (nx tm d).
Proof. intros t tm d H. unfold through. rewrite nx_active, !nx_thk. exact H. Qed.

Lemma mm_reach : forall tau d, inv tau d -> active d = true -> (d_c d = d_to d <-> mm d = aa d).
Proof.
  intros tau d _ Ha. apply active_iff in Ha. unfold mm, aa, vv, sign in *.
  destruct (Z.sgn_spec (d_to d - d_from d)) as [[? ->]|[[? ?]|[? ->]]]; lia.
Qed.

Lemma mm_sign : forall d, active d = true -> 0 <= mm d < aa d -> d_c d <> d_to d /\ Z.sgn (d_to d - d_c d) = sign d.
Proof.
  intros d Ha. apply active_iff in Ha. unfold mm, aa, vv, sign in *.
  destruct (Z.sgn_spec (d_to d - d_from d)) as [[? ->]|[[? ?]|[? ->]]]; lia.
Qed.

Definition leftover (l : list dimn) : Z := zsum (map (fun d => aa d - mm d) (filter active l)).

Lemma leftover_cons : forall d l, leftover (d :: l) = (if active d then aa d - mm d else 0) + leftover l.
Proof. intros. unfold leftover. cbn [filter]. destruct (active d); cbn [map zsum]; lia. Qed.

Lemma leftover_next : forall tm l, leftover (next_l tm l) = leftover l - Z.of_nat (length (filter (crosses tm) l)).
Proof.
  intros tm l. rewrite next_map. induction l as [|d l IH]; [reflexivity|]. cbn [map filter]. rewrite !leftover_cons, IH, nx_active, nx_aa, nx_mm.
  destruct (crosses tm d) eqn:E; [rewrite (crosses_active _ _ E)|]; cbn [length]; destruct (active d); lia.
Qed.

Lemma leftover_nonneg : forall l, (forall d, In d l -> active d = true -> mm d <= aa d) -> 0 <= leftover l.
Proof.
  induction l as [|d l IH]; intros H; [cbn; lia|]. rewrite leftover_cons. pose proof (IH ltac:(intros; apply H; simpl; auto)).
  destruct (active d) eqn:E; [|lia]. specialize (H d ltac:(simpl; auto) E). lia.
Qed.

Lemma leftover_zero : forall l, (forall d, In d l -> active d = true -> mm d <= aa d) ->
  (leftover l = 0 <-> forall d, In d l -> active d = true -> mm d = aa d).
Proof.
  induction l as [|d l IH]; intros H; [split; [intros _ d []|reflexivity]|]. rewrite leftover_cons.
  assert (H' : forall x, In x l -> active x = true -> mm x <= aa x) by (intros; apply H; simpl; auto).
  pose proof (leftover_nonneg l H'). specialize (IH H'). specialize (H d ltac:(simpl; auto)). split.
  - intros E x [<-|Hx] Ha; [rewrite Ha in *; specialize (H eq_refl); lia|].
    apply IH; auto. destruct (active d) eqn:Ed; [specialize (H eq_refl)|]; lia.
  - intros E. assert (leftover l = 0) by (apply IH; intros; apply E; simpl; auto).
    destruct (active d) eqn:Ed; [|lia]. specialize (E d ltac:(simpl; auto) Ed). lia.
Qed.

Lemma reached_mm : forall tau l, Forall (inv tau) l ->
  (reached l = true <-> forall d, In d l -> active d = true -> mm d = aa d).
Proof.
  intros tau l H. rewrite Forall_forall in H. unfold reached. rewrite forallb_forall. split; intros R d Hd.
  - intros Ha. specialize (R d Hd). apply Z.eqb_eq in R. eapply mm_reach; eauto.
  - apply Z.eqb_eq. destruct (active d) eqn:Ha; [apply (mm_reach tau d (H d Hd) Ha); auto|]. apply (proj1 (H d Hd)); auto.
Qed.

Lemma step_closer : forall tm l, (forall d, In d l -> crosses tm d = true -> d_c d <> d_to d /\ Z.sgn (d_to d - d_c d) = sign d) ->
  closer (to_l l) (cindex l) (cindex (next_l tm l)).
Proof.
  intros tm l. induction l as [|d l IH]; intros H; [exact I|].
  rewrite next_l_cons. cbn [to_l cindex map closer]. split.
  - destruct (crosses tm d) eqn:E; cbn [move cross d_c]; [right|auto].
    destruct (H d ltac:(simpl; auto) E) as [N S]. rewrite S. auto.
  - apply IH. intros; apply H; simpl; auto.
Qed.

Lemma each_closer : forall tm todo done,
  (forall d, In d todo -> crosses tm d = true -> d_c d <> d_to d /\ Z.sgn (d_to d - d_c d) = sign d) ->
  let rows := cross_each tm done todo in
  consecutive (one_closer (to_l done ++ to_l todo)) (cindex (done ++ todo) :: rows) /\
  last (cindex (done ++ todo) :: rows) [] = cindex done ++ cindex (next_l tm todo) /\
  length rows = length (filter (crosses tm) todo).
Proof.
  intros tm todo. induction todo as [|d l IH]; intros done HN; cbv zeta.
  - cbn [cross_each consecutive last filter length]. unfold cindex. rewrite map_app. cbn. auto.
  - assert (HN' : forall d, In d l -> crosses tm d = true -> d_c d <> d_to d /\ Z.sgn (d_to d - d_c d) = sign d) by (intros; apply HN; simpl; auto).
    rewrite next_l_cons. cbn [cross_each filter]. destruct (crosses tm d) eqn:E.
    + destruct (IH (done ++ [cross d]) HN') as (I1 & I2 & I3). cbv zeta in *.
      rewrite <- app_assoc in I1, I2. cbn [app] in I1, I2.
      replace (to_l (done ++ [cross d]) ++ to_l l) with (to_l done ++ to_l (d :: l)) in I1
        by (unfold to_l; rewrite map_app, <- app_assoc; reflexivity).
      split; [|split].
      * set (T := to_l done ++ to_l (d :: l)) in *.
        change (consecutive (one_closer T) (cindex (done ++ d :: l) :: cindex (done ++ cross d :: l) :: cross_each tm (done ++ [cross d]) l))
          with (one_closer T (cindex (done ++ d :: l)) (cindex (done ++ cross d :: l)) /\
            consecutive (one_closer T) (cindex (done ++ cross d :: l) :: cross_each tm (done ++ [cross d]) l)).
        split; [|exact I1]. unfold T, cindex. rewrite !map_app.
        apply one_closer_mid; [unfold to_l; rewrite !map_length; auto|].
        cbn [to_l map one_closer]. right.
        destruct (HN d ltac:(simpl; auto) E) as [N S]. rewrite S. auto.
      * change (last (cindex (done ++ d :: l) :: cindex (done ++ cross d :: l) :: cross_each tm (done ++ [cross d]) l) [])
          with (last (cindex (done ++ cross d :: l) :: cross_each tm (done ++ [cross d]) l) []).
        rewrite I2. unfold cindex. rewrite map_app, <- app_assoc. reflexivity.
      * cbn [length]. lia.
    + destruct (IH (done ++ [d]) HN') as (I1 & I2 & I3). cbv zeta in *.
      rewrite <- app_assoc in I1, I2. cbn [app] in I1, I2.
      replace (to_l (done ++ [d]) ++ to_l l) with (to_l done ++ to_l (d :: l)) in I1
        by (unfold to_l; rewrite map_app, <- app_assoc; reflexivity).
      split; [exact I1|]. split; [|exact I3]. rewrite I2. unfold cindex. rewrite map_app, <- app_assoc. reflexivity.
Qed.

(** *** Where the pixels are *)

(** At parameter [T] of the line. *)
Definition at_line (T : Q) (d : dimn) : Prop :=
  active d = true -> (thk d (mm d - 1) <= T <= thk d (mm d))%Q.

Definition fixed (d : dimn) : Prop := active d = false -> d_c d = d_from d.

Lemma touches_at : forall T l, Forall (at_line T) l -> Forall fixed l ->
  touches_from (map d_from l) (to_l l) T (cindex l).
Proof.
  intros T l H. induction H as [|d l Hd H IH]; intros HF; [exact I|]. inversion_clear HF as [|? ? F1 F2].
  cbn [map to_l cindex touches_from]. split; [|apply IH; auto]. unfold fixed, at_line, active in *.
  destruct (d_from d =? d_to d) eqn:E.
  - apply F1. rewrite negb_false_iff. lia.
  - assert (Ha : active d = true) by (unfold active; rewrite negb_true_iff; lia).
    destruct (Hd Ha) as [L U]. pose proof (aa_pos d Ha) as P.
    apply Qmult_le_compat_r with (z := inject_Z (aa d)) in L; [|lra].
    apply Qmult_le_compat_r with (z := inject_Z (aa d)) in U; [|lra].
    rewrite thk_a in L, U by auto. pose proof (slope_aa d) as SA. unfold slope in SA. rewrite SA.
    assert (EM : (inject_Z (mm d - 1) == inject_Z (mm d) - 1)%Q) by (unfold Z.sub; rewrite inject_Z_plus; reflexivity).
    rewrite EM in L.
    unfold mm in L, U. rewrite inject_Z_mult in L, U.
    destruct (sgn_cases d Ha) as [[ES _]|[ES _]]; rewrite ES in *; split; lra.
Qed.

Lemma each_rows : forall T tm todo done, Forall (at_line T) done -> Forall (at_line T) todo ->
  (forall d, In d todo -> crosses tm d = true -> at_line T (cross d)) ->
  Forall fixed done -> Forall fixed todo ->
  forall r, In r (cross_each tm done todo) ->
  touches_from (map d_from (done ++ todo)) (to_l (done ++ todo)) T r.
Proof.
  intros T tm todo. induction todo as [|d l IH]; intros done H1 H2 H3 F1 F2 r Hr; [destruct Hr|].
  inversion_clear H2 as [|? ? H2a H2b]. inversion_clear F2 as [|? ? F2a F2b].
  assert (H3' : forall x, In x l -> crosses tm x = true -> at_line T (cross x)) by (intros; apply H3; simpl; auto).
  cbn [cross_each] in Hr. destruct (crosses tm d) eqn:E.
  - assert (A : at_line T (cross d)) by (apply H3; simpl; auto).
    assert (F : fixed (cross d)).
    { intros X. apply crosses_active in E. change (active (cross d)) with (active d) in X. congruence. }
    assert (EQ1 : map d_from (done ++ d :: l) = map d_from (done ++ cross d :: l)) by (rewrite !map_app; reflexivity).
    assert (EQ2 : to_l (done ++ d :: l) = to_l (done ++ cross d :: l)) by (unfold to_l; rewrite !map_app; reflexivity).
    rewrite EQ1, EQ2. destruct Hr as [<-|Hr].
    + apply touches_at; apply Forall_app; split; auto.
    + replace (done ++ cross d :: l) with ((done ++ [cross d]) ++ l) by (rewrite <- app_assoc; reflexivity).
      apply IH; auto; apply Forall_app; split; auto.
  - replace (done ++ d :: l) with ((done ++ [d]) ++ l) by (rewrite <- app_assoc; reflexivity).
    apply IH; auto; apply Forall_app; split; auto.
Qed.

Lemma nx_fixed : forall tm d, fixed d -> fixed (nx tm d).
Proof.
  intros tm d H X. rewrite nx_active in X. rewrite nx_from. unfold nx. destruct (crosses tm d) eqn:E; [apply crosses_active in E; congruence|].
  cbn [move d_c]. auto.
Qed.

Lemma cross_mm : forall d, active d = true -> mm (cross d) = mm d + 1.
Proof. intros d H. pose proof (sign_sq d H). unfold mm. change (sign (cross d)) with (sign d). cbn [cross d_c d_from]. lia. Qed.

Lemma loop_ends : forall fl t n l tau T fuel, Forall (inv tau) l -> small l ->
  (forall d, In d l -> through t d) -> (forall d, In d l -> active d = true -> mm d <= aa d) ->
  Forall (at_line T) l -> Forall fixed l ->
  0 < leftover l <= Z.of_nat n -> (n <= fuel)%nat ->
  exists rows, line_loop fl fuel l = Ok rows /\
    consecutive (stepR fl (to_l l)) (cindex l :: rows) /\ last (cindex l :: rows) [] = to_l l /\
    (fl = true -> lenZ rows = leftover l) /\
    (forall r, In r rows -> exists T', touches_from (map d_from l) (to_l l) T' r).
Proof.
  intros fl t. induction n as [|n IH]; intros l tau T fuel HI HS HT HM HA HF Hr Hf; [lia|].
  destruct fuel as [|fuel]; [lia|]. cbn [line_loop].
  assert (EX : exists d, In d l /\ active d = true /\ mm d < aa d).
  { destruct (existsb (fun d => active d && (mm d <? aa d)) l) eqn:E.
    - apply existsb_exists in E. destruct E as (d & Hd & E). apply andb_true_iff in E. exists d. split; [auto|]. split; [tauto|lia].
    - exfalso. assert (leftover l = 0); [|lia]. apply leftover_zero; auto. intros d Hd Ha.
      rewrite <- not_true_iff_false, existsb_exists in E. specialize (HM d Hd Ha).
      destruct (Z.eq_dec (mm d) (aa d)) as [|N]; auto. exfalso. apply E. exists d. split; auto. rewrite Ha. cbn [andb]. lia. }
  destruct EX as (dj & Hj & Aj & Lj).
  destruct (tmin_some l dj Hj Aj) as (tm & ET). rewrite ET. fold (next_l tm l).
  destruct (turn tau l tm HI HS ET) as ((dc & Hdc & Adc & Cdc) & LE & IFF).
  pose proof HI as HI0. rewrite Forall_forall in HI0.
  assert (HN : forall d, In d l -> crosses tm d = true -> mm d < aa d).
  { intros d Hd Hc. apply IFF in Hc; auto. destruct Hc as [Ha Et]. destruct (Z_lt_le_dec (mm d) (aa d)) as [|L]; auto. exfalso.
    destruct (through_end t d (mm d) (HT d Hd) Ha) as [_ U]. specialize (U L). rewrite <- (th_thk tau d) in U by auto.
    destruct (through_end t dj (mm dj) (HT dj Hj) Aj) as [V _]. specialize (V Lj). rewrite <- (th_thk tau dj) in V by auto.
    specialize (LE dj Hj Aj). lra. }
  assert (HC : forall d, In d l -> crosses tm d = true -> d_c d <> d_to d /\ Z.sgn (d_to d - d_c d) = sign d).
  { intros d Hd Hc. pose proof (crosses_active _ _ Hc) as Ha. apply mm_sign; auto. split; [|apply HN; auto].
    apply (proj2 (HI0 d Hd)); auto. }
  pose proof (next_inv tau tm l HI) as HI'.
  assert (HM' : forall d, In d (next_l tm l) -> active d = true -> mm d <= aa d).
  { intros x Hx. rewrite next_map in Hx. apply in_map_iff in Hx. destruct Hx as (d & <- & Hd). rewrite nx_active, nx_aa, nx_mm. intros Ha.
    specialize (HM d Hd Ha). specialize (HN d Hd). destruct (crosses tm d); [specialize (HN eq_refl); lia|lia]. }
  assert (HT' : forall d, In d (next_l tm l) -> through t d).
  { intros x Hx. rewrite next_map in Hx. apply in_map_iff in Hx. destruct Hx as (d & <- & Hd). apply nx_through. auto. }
  pose proof (leftover_next tm l) as HR. pose proof (crossed_pos tm l dc Hdc Cdc) as HP.
  pose proof (leftover_nonneg _ HM') as HNN.
  assert (TB : forall d, In d l -> active d = true -> (T <= tm + tau)%Q).
  { intros d Hd Ha. apply IFF in Cdc; auto. destruct Cdc as [_ Ec]. rewrite <- Ec, (th_thk tau dc) by auto.
    rewrite Forall_forall in HA. apply (HA dc Hdc Adc). }
  assert (HA' : Forall (at_line (tm + tau)) (next_l tm l)).
  { rewrite next_map. apply Forall_forall. intros x Hx. apply in_map_iff in Hx. destruct Hx as (d & <- & Hd).
    intros Ha. rewrite nx_active in Ha. rewrite !nx_thk, nx_mm. pose proof (LE d Hd Ha) as L. rewrite (th_thk tau d) in L by auto.
    destruct (crosses tm d) eqn:E.
    - apply IFF in E; auto. destruct E as [_ E]. rewrite (th_thk tau d) in E by auto.
      replace (mm d + 1 - 1) with (mm d) by lia. pose proof (thk_lt d (mm d) (mm d + 1) Ha ltac:(lia)). split; lra.
    - rewrite Forall_forall in HA. destruct (HA d Hd Ha) as [L1 _]. specialize (TB d Hd Ha). split; lra. }
  assert (HAb : Forall (at_line (tm + tau)) l).
  { apply Forall_forall. intros d Hd Ha. pose proof (LE d Hd Ha) as L. rewrite (th_thk tau d) in L by auto.
    rewrite Forall_forall in HA. destruct (HA d Hd Ha) as [L1 _]. specialize (TB d Hd Ha). split; lra. }
  assert (HAc : forall d, In d l -> crosses tm d = true -> at_line (tm + tau) (cross d)).
  { intros d Hd Hc. pose proof (crosses_active _ _ Hc) as Ha. intros _. rewrite (cross_mm d Ha).
    change (thk (cross d)) with (thk d). apply IFF in Hc; auto. destruct Hc as [_ E]. rewrite (th_thk tau d) in E by auto.
    replace (mm d + 1 - 1) with (mm d) by lia. pose proof (thk_lt d (mm d) (mm d + 1) Ha ltac:(lia)). split; lra. }
  assert (HF' : Forall fixed (next_l tm l)).
  { rewrite next_map. apply Forall_forall. intros x Hx. apply in_map_iff in Hx. destruct Hx as (d & <- & Hd). apply nx_fixed.
    rewrite Forall_forall in HF. auto. }
  assert (FR : map d_from (next_l tm l) = map d_from l) by apply from_next.
  set (rows := if fl then cross_each tm [] l else [cindex (next_l tm l)]).
  assert (HROW : consecutive (stepR fl (to_l l)) (cindex l :: rows) /\
    last (cindex l :: rows) [] = cindex (next_l tm l) /\ (fl = true -> lenZ rows = Z.of_nat (length (filter (crosses tm) l))) /\
    (forall r, In r rows -> touches_from (map d_from l) (to_l l) (tm + tau) r)).
  { unfold rows, stepR. destruct fl.
    - destruct (each_closer tm l [] HC) as (F1 & F2 & F3). cbn [app to_l map cindex] in F1, F2.
      split; [exact F1|]. split; [exact F2|]. split; [intros _; unfold lenZ; rewrite F3; auto|].
      intros r Hrr. apply (each_rows (tm + tau) tm l []); auto.
    - split; [|split; [reflexivity|split; [discriminate|]]].
      + split; [|exact I]. split; [apply step_closer; auto|]. apply cindex_neq with dc; auto.
      + intros r [<-|[]]. rewrite <- FR, <- (to_next tm l). apply touches_at; auto. }
  destruct HROW as (R1 & R2 & R3 & R4).
  destruct (reached (next_l tm l)) eqn:ER.
  - exists rows. split; [auto|]. split; [auto|]. split; [rewrite R2, reached_to by auto; apply to_next|].
    split; [|intros r Hrr; eexists; apply R4; auto].
    intros Hfl. rewrite (R3 Hfl). pose proof (proj2 (leftover_zero _ HM') (proj1 (reached_mm tm _ HI') ER)). lia.
  - assert (HNZ : leftover (next_l tm l) <> 0).
    { intros E. pose proof (proj2 (reached_mm tm _ HI') (proj1 (leftover_zero _ HM') E)). congruence. }
    destruct (IH (next_l tm l) tm (tm + tau)%Q fuel HI' (next_small tm l HS) HT' HM' HA' HF') as (rest & E & S1 & S2 & S3 & S4); try lia.
    rewrite E, bind_Ok. exists (rows ++ rest). split; [auto|]. rewrite to_next, FR in *.
    split; [|split; [|split]].
    + apply consecutive_app; auto. rewrite R2. auto.
    + rewrite last_app2, R2. auto.
    + intros Hfl. rewrite lenZ_app, (R3 Hfl), (S3 Hfl). lia.
    + intros r Hrr. apply in_app_iff in Hrr. destruct Hrr as [Hrr|Hrr]; [eexists; apply R4; auto|apply S4; auto].
Qed.

(** ** Paths that do not end *)

(** [d] does not arrive before [e] has gone too far. *)
Definition bad (l : list dimn) : Prop := exists d e, In d l /\ In e l /\ active d = true /\ active e = true /\
  (thk e 0 <= thk d (-1))%Q /\ (aa d <= mm d -> aa e < mm e).

Lemma bad_next : forall tau l tm, Forall (inv tau) l -> small l -> tmin l = Some tm -> bad l -> bad (next_l tm l).
Proof.
  intros tau l tm HI HS HT (d & e & Hd & He & Ad & Ae & L & B).
  destruct (turn tau l tm HI HS HT) as (_ & LE & IFF). rewrite Forall_forall in HI.
  exists (nx tm d), (nx tm e). rewrite next_map. split; [apply in_map; auto|]. split; [apply in_map; auto|].
  rewrite !nx_active, !nx_thk, !nx_aa, !nx_mm. split; [auto|]. split; [auto|]. split; [auto|]. intros H.
  destruct (Z_lt_le_dec (mm d) (aa d)) as [X|X]; [|specialize (B X); destruct (crosses tm e); lia].
  destruct (crosses tm d) eqn:Ed; [|lia]. destruct (Z_lt_le_dec (aa e) (mm e)) as [Y|Y]; [destruct (crosses tm e); lia|].
  apply IFF in Ed; auto. destruct Ed as [_ Ed]. rewrite (th_thk tau d) in Ed by auto.
  assert (Em : mm d = -1 + aa d) by lia. rewrite Em, thk_shift in Ed by auto.
  pose proof (LE e He Ae) as M. rewrite (th_thk tau e) in M by auto.
  pose proof (thk_le e (mm e) (0 + aa e) Ae ltac:(lia)) as U. rewrite thk_shift in U by auto.
  assert (EQ : (thk e (mm e) == thk e 0 + 1)%Q) by lra.
  assert (Ee : mm e = aa e).
  { destruct (Z.eq_dec (mm e) (aa e)) as [|N]; auto. exfalso. pose proof (thk_lt e (mm e) (0 + aa e) Ae ltac:(lia)) as V.
    rewrite thk_shift in V by auto. lra. }
  assert (CE : crosses tm e = true) by (apply IFF; auto; split; auto; rewrite (th_thk tau e) by auto; lra).
  rewrite CE. lia.
Qed.

Lemma bad_not_reached : forall tau l, Forall (inv tau) l -> bad l -> reached l = false.
Proof.
  intros tau l HI (d & e & Hd & He & Ad & Ae & L & B). destruct (reached l) eqn:E; [|auto].
  pose proof (proj1 (reached_mm tau l HI) E) as R. pose proof (R d Hd Ad). pose proof (R e He Ae). lia.
Qed.

Lemma bad_forever : forall fl fuel l tau, Forall (inv tau) l -> small l -> bad l -> line_loop fl fuel l = NoFuel.
Proof.
  intros fl. induction fuel as [|fuel IH]; intros l tau HI HS HB; [reflexivity|]. cbn [line_loop].
  pose proof HB as (d & e & Hd & He & Ad & Ae & _). destruct (tmin_some l d Hd Ad) as (tm & ET). rewrite ET. fold (next_l tm l).
  pose proof (bad_next tau l tm HI HS ET HB) as HB'. pose proof (next_inv tau tm l HI) as HI'.
  rewrite (bad_not_reached tm _ HI' HB'), (IH _ tm HI' (next_small tm l HS) HB'). reflexivity.
Qed.

(** ** Either the one or the other *)

Lemma max_of : forall (f : dimn -> Q) l d0, In d0 l -> exists d, In d l /\ forall x, In x l -> (f x <= f d)%Q.
Proof.
  intros f l. induction l as [|a l IH]; intros d0 H; [destruct H|].
  destruct l as [|b l]; [exists a; split; [simpl; auto|]; intros x [<-|[]]; apply Qle_refl|].
  destruct (IH b ltac:(simpl; auto)) as (d & Hd & M). destruct (Qlt_le_dec (f a) (f d)) as [X|X].
  - exists d. split; [right; auto|]. intros x [<-|Hx]; [lra|auto].
  - exists a. split; [left; auto|]. intros x [<-|Hx]; [apply Qle_refl|]. specialize (M x Hx). lra.
Qed.

Lemma dichotomy : forall l, (exists d, In d l /\ active d = true) ->
  (exists t, forall d, In d l -> through t d) \/
  (exists d e, In d l /\ In e l /\ active d = true /\ active e = true /\ (thk e 0 <= thk d (-1))%Q).
Proof.
  intros l (d0 & H0 & A0). assert (F0 : In d0 (filter active l)) by (apply filter_In; auto).
  destruct (max_of (fun d => thk d (-1)) _ d0 F0) as (d & Hd & Md).
  destruct (max_of (fun d => (- thk d 0)%Q) _ d0 F0) as (e & He & Me).
  apply filter_In in Hd, He. destruct (Qlt_le_dec (thk d (-1)) (thk e 0)) as [X|X].
  - left. exists ((thk d (-1) + thk e 0) * (1 # 2))%Q. intros x Hx Ax.
    assert (Fx : In x (filter active l)) by (apply filter_In; auto). specialize (Md x Fx). specialize (Me x Fx). cbn beta in *. split; lra.
  - right. exists d, e. tauto.
Qed.

Lemma through_meets : forall t x0 x1, length x1 = length x0 ->
  ((forall d, In d (mks x0 x1) -> through t d) <->
   Forall2 (fun a b => a <> b -> (- (1 # 2) < inject_Z a + inject_Z (b - a) * t < 1 # 2)%Q) x0 x1).
Proof.
  intros t. induction x0 as [|a x0 IH]; intros [|b x1] HL; simpl in HL; try discriminate.
  - split; [constructor|intros _ d []].
  - assert (K : through t (mk a b) <-> (a <> b -> (- (1 # 2) < inject_Z a + inject_Z (b - a) * t < 1 # 2)%Q)).
    { assert (AI : active (mk a b) = true <-> a <> b) by (rewrite active_iff; unfold vv; cbn [mk d_to d_from]; lia).
      assert (W : active (mk a b) = true -> ((thk (mk a b) (-1) < t < thk (mk a b) 0)%Q <->
        (- (1 # 2) < inject_Z a + inject_Z (b - a) * t < 1 # 2)%Q)).
      { intros N. pose proof (aa_pos (mk a b) N) as P. pose proof (thk_a (mk a b) (-1) N) as E1. pose proof (thk_a (mk a b) 0 N) as E2.
        pose proof (slope_aa (mk a b)) as SA. unfold slope in SA.
        change (d_to (mk a b)) with b in *. change (d_from (mk a b)) with a in *.
        change (inject_Z (-1)) with (-1#1)%Q in E1. change (inject_Z 0) with 0%Q in E2. split; intros H.
        - destruct H as [L U]. apply Qmult_lt_r with (z := inject_Z (aa (mk a b))) in L; auto. apply Qmult_lt_r with (z := inject_Z (aa (mk a b))) in U; auto.
          rewrite E1 in L. rewrite E2 in U. rewrite SA.
          destruct (sgn_cases (mk a b) N) as [[ES _]|[ES _]]; rewrite ES in *; split; lra.
        - rewrite SA in H.
          split; apply Qmult_lt_r with (z := inject_Z (aa (mk a b))); auto; rewrite ?E1, ?E2;
          destruct (sgn_cases (mk a b) N) as [[ES _]|[ES _]]; rewrite ES in *; lra. }
      unfold through. split; intros H N.
      - apply W; [|apply H]; apply AI; auto.
      - apply W; [auto|]. apply H, AI; auto. }
    cbn [mks]. split.
    + intros H. constructor; [apply K, H; simpl; auto|]. apply IH; [lia|]. intros; apply H; simpl; auto.
    + intros H. inversion_clear H as [|? ? ? ? H1 H2]. intros d [<-|Hd]; [apply K; auto|]. apply (proj2 (IH x1 ltac:(lia)) H2); auto.
Qed.

Lemma mks_start : forall x0 x1, length x1 = length x0 ->
  Forall (inv 0) (mks x0 x1) /\ Forall fixed (mks x0 x1) /\ (forall d, In d (mks x0 x1) -> mm d = 0) /\
  cindex (mks x0 x1) = x0 /\ to_l (mks x0 x1) = x1 /\ map d_from (mks x0 x1) = x0 /\
  leftover (mks x0 x1) = manhattan x0 x1.
Proof.
  induction x0 as [|a x0 IH]; intros [|b x1] HL; simpl in HL; try discriminate; [cbn; repeat split; auto; intros d []|].
  destruct (IH x1 ltac:(lia)) as (I1 & I2 & I3 & I4 & I5 & I6 & I7). cbn [mks].
  assert (M : mm (mk a b) = 0) by (unfold mm; cbn [mk d_c d_from]; lia).
  split; [|split; [|split; [|split; [|split; [|split]]]]].
  - constructor; auto. split.
    + intros E. unfold active in E. apply negb_false_iff in E. cbn [mk d_c d_to d_from] in *. lia.
    + intros _. rewrite M. split; [lia|]. cbn [mk d_next d_x d_from]. change (inject_Z 0) with 0%Q. split; [unfold sign; cbn [mk d_to d_from]; ring|ring].
  - constructor; auto. intros _. reflexivity.
  - intros d [<-|Hd]; auto.
  - cbn [cindex map mk d_c]. f_equal. exact I4.
  - cbn [to_l map mk d_to]. f_equal. exact I5.
  - cbn [map mk d_from]. f_equal. exact I6.
  - rewrite leftover_cons, I7, M. cbn [manhattan]. destruct (active (mk a b)) eqn:E.
    + unfold aa, vv; cbn [mk d_to d_from]. lia.
    + unfold active in E. apply negb_false_iff in E. cbn [mk d_to d_from] in E. lia.
Qed.

Lemma mks_active : forall x0 x1, length x1 = length x0 -> x0 <> x1 -> exists d, In d (mks x0 x1) /\ active d = true.
Proof.
  induction x0 as [|a x0 IH]; intros [|b x1] HL HN; simpl in HL; try discriminate; [congruence|]. cbn [mks].
  destruct (Z.eq_dec a b) as [->|N].
  - destruct (IH x1 ltac:(lia)) as (d & Hd & Ha); [congruence|]. exists d. simpl; auto.
  - exists (mk a b). split; [simpl; auto|]. apply active_iff. unfold vv. cbn [mk d_to d_from]. lia.
Qed.

Lemma mks_small : forall x0 x1, span x0 x1 <= 707 -> small (mks x0 x1).
Proof.
  intros x0 x1 H d d' Hd Hd'. apply mks_aa in Hd, Hd'. assert (0 <= aa d /\ 0 <= aa d') by (unfold aa; lia). nia.
Qed.

Lemma line_ends : forall fl fuel x0 x1, (1 <= length x0 <= 3)%nat -> length x1 = length x0 -> x0 <> x1 ->
  span x0 x1 <= 707 -> meets_origin x0 x1 -> (Z.to_nat (manhattan x0 x1) <= fuel)%nat ->
  exists rows, line fl fuel x0 x1 = Ok rows /\ path_between (stepR fl x1) x0 x1 rows /\
    (fl = true -> lenZ rows = manhattan x0 x1 + 1) /\
    forall r, In r rows -> exists t, touches_from x0 x1 t r.
Proof.
  intros fl fuel x0 x1 HL HL' HN HS (t & HW) Hf.
  destruct (line_start x0 x1 HL HL' ltac:(lia)) as [E1 E2]. unfold line. rewrite E1, E2, bind_Ok.
  destruct (mks_start x0 x1 HL') as (S1 & S2 & S3 & S4 & S5 & S6 & S7).
  pose proof (manhattan_pos x0 x1 HL' HN) as HM.
  pose proof (proj2 (through_meets t x0 x1 HL') HW) as HT.
  assert (HA : Forall (at_line t) (mks x0 x1)).
  { apply Forall_forall. intros d Hd Ha. rewrite (S3 d Hd). change (0 - 1) with (-1). destruct (HT d Hd Ha). split; lra. }
  destruct (loop_ends fl t (Z.to_nat (manhattan x0 x1)) (mks x0 x1) 0 t fuel) as (rows & E & R1 & R2 & R3 & R4); auto.
  - apply mks_small; auto.
  - intros d Hd Ha. rewrite (S3 d Hd). unfold aa. lia.
  - rewrite S7. lia.
  - rewrite E, bind_Ok. exists (cindex (mks x0 x1) :: rows). split; [auto|]. rewrite S4, S5, S6 in *. split; [split; [|split]; auto|]. split.
    + intros Hfl. rewrite lenZ_cons, (R3 Hfl), S7. lia.
    + intros r [<-|Hr]; [|auto]. exists t. pose proof (touches_at t _ HA S2) as X. rewrite S4, S5, S6 in X. exact X.
Qed.

Lemma line_never_ends : forall fl fuel x0 x1, (1 <= length x0 <= 3)%nat -> length x1 = length x0 -> x0 <> x1 ->
  span x0 x1 <= 707 -> ~ meets_origin x0 x1 -> line fl fuel x0 x1 = NoFuel.
Proof.
  intros fl fuel x0 x1 HL HL' HN HS HW.
  destruct (line_start x0 x1 HL HL' ltac:(lia)) as [E1 E2]. unfold line. rewrite E1, E2, bind_Ok.
  destruct (mks_start x0 x1 HL') as (S1 & S2 & S3 & S4 & S5 & S6 & S7).
  destruct (dichotomy (mks x0 x1) (mks_active x0 x1 HL' HN)) as [(t & H)|(d & e & Hd & He & Ad & Ae & L)].
  - exfalso. apply HW. exists t. apply through_meets; auto.
  - rewrite (bad_forever fl fuel _ 0 S1 (mks_small _ _ HS)); [reflexivity|].
    exists d, e. repeat (split; [auto|]). rewrite (S3 d Hd). apply active_iff in Ad. unfold aa. lia.
Qed.

(** ** In the plane *)

Lemma meets_plane : forall a0 a1 b0 b1, a0 <> b0 -> a1 <> b1 ->
  (meets_origin [a0; a1] [b0; b1] <-> 2 * Z.abs (a0 * b1 - a1 * b0) < Z.abs (b0 - a0) + Z.abs (b1 - a1)).
Proof.
  intros a0 a1 b0 b1 N0 N1.
  set (v0 := b0 - a0). set (v1 := b1 - a1).
  assert (EC : a0 * b1 - a1 * b0 = a0 * v1 - a1 * v0) by (unfold v0, v1; ring). rewrite EC. set (C := a0 * v1 - a1 * v0).
  assert (V0 : v0 <> 0) by (unfold v0; lia). assert (V1 : v1 <> 0) by (unfold v1; lia).
  assert (QC : (inject_Z C == inject_Z a0 * inject_Z v1 - inject_Z a1 * inject_Z v0)%Q).
  { unfold C, Z.sub. rewrite inject_Z_plus, inject_Z_opp, !inject_Z_mult. reflexivity. }
  split.
  - intros (t & H). inversion_clear H as [|? ? ? ? H0 H']. inversion_clear H' as [|? ? ? ? H1 _].
    specialize (H0 N0). specialize (H1 N1). fold v0 in H0. fold v1 in H1.
    assert (B : forall w : Z, w <> 0 -> exists s : Z, (s = 1 \/ s = -1) /\ Z.abs w = s * w).
    { intros w Hw. destruct (Z_lt_le_dec 0 w); [exists 1|exists (-1)]; lia. }
    destruct (B v0 V0) as (s0 & S0 & E0). destruct (B v1 V1) as (s1 & S1 & E1).
    assert (P0 : (0 < inject_Z s0 * inject_Z v0)%Q) by (rewrite <- inject_Z_mult, <- E0; change 0%Q with (inject_Z 0); rewrite <- Zlt_Qlt; lia).
    assert (P1 : (0 < inject_Z s1 * inject_Z v1)%Q) by (rewrite <- inject_Z_mult, <- E1; change 0%Q with (inject_Z 0); rewrite <- Zlt_Qlt; lia).
    set (c0 := (inject_Z a0 + inject_Z v0 * t)%Q) in *. set (c1 := (inject_Z a1 + inject_Z v1 * t)%Q) in *.
    assert (QC' : (inject_Z C == c0 * inject_Z v1 - c1 * inject_Z v0)%Q) by (rewrite QC; unfold c0, c1; ring).
    assert (M : forall c s v, (- (1 # 2) < c < 1 # 2)%Q -> (s = 1 \/ s = -1) -> (0 < inject_Z s * inject_Z v)%Q ->
      (- (inject_Z s * inject_Z v) < 2 * (c * inject_Z v) < inject_Z s * inject_Z v)%Q).
    { intros c s v Hc Hs Hp. destruct Hs as [-> | ->]; change (inject_Z 1) with 1%Q in *; change (inject_Z (-1)) with (-1#1)%Q in *.
      - assert (0 < (c + (1 # 2)) * inject_Z v)%Q by (apply Qmult_lt_0_compat; lra).
        assert (0 < ((1 # 2) - c) * inject_Z v)%Q by (apply Qmult_lt_0_compat; lra). split; lra.
      - assert (0 < (c + (1 # 2)) * (- inject_Z v))%Q by (apply Qmult_lt_0_compat; lra).
        assert (0 < ((1 # 2) - c) * (- inject_Z v))%Q by (apply Qmult_lt_0_compat; lra). split; lra. }
    pose proof (M c0 s1 v1 H0 S1 P1) as M0. pose proof (M c1 s0 v0 H1 S0 P0) as M1.
    assert (U : (2 * inject_Z C < inject_Z s0 * inject_Z v0 + inject_Z s1 * inject_Z v1)%Q) by lra.
    assert (L : (- (inject_Z s0 * inject_Z v0 + inject_Z s1 * inject_Z v1) < 2 * inject_Z C)%Q) by lra.
    rewrite <- !inject_Z_mult, <- E0, <- E1, <- inject_Z_plus in U, L. rewrite <- inject_Z_opp in L.
    change 2%Q with (inject_Z 2) in U, L. rewrite <- inject_Z_mult, <- Zlt_Qlt in U, L. lia.
  - intros H. set (S := Z.abs v0 + Z.abs v1) in *.
    assert (PS : (0 < inject_Z S)%Q) by (change 0%Q with (inject_Z 0); rewrite <- Zlt_Qlt; unfold S; lia).
    assert (NZ0 : ~ (inject_Z v0 == 0)%Q) by (change 0%Q with (inject_Z 0); rewrite inject_Z_injective; auto).
    set (s0 := Z.sgn v0). set (s1 := Z.sgn v1).
    assert (ES : (inject_Z S == inject_Z s0 * inject_Z v0 + inject_Z s1 * inject_Z v1)%Q).
    { unfold S, s0, s1. rewrite <- !inject_Z_mult, <- inject_Z_plus.
      replace (Z.abs v0 + Z.abs v1) with (Z.sgn v0 * v0 + Z.sgn v1 * v1) by lia. reflexivity. }
    set (q := (inject_Z C / inject_Z S)%Q).
    assert (QQ : (q * inject_Z S == inject_Z C)%Q) by (unfold q; field; lra).
    assert (Bq : (- (1 # 2) < q < 1 # 2)%Q).
    { assert (U : (2 * inject_Z C < inject_Z S)%Q) by (change 2%Q with (inject_Z 2); rewrite <- inject_Z_mult, <- Zlt_Qlt; lia).
      assert (L : (- inject_Z S < 2 * inject_Z C)%Q) by (change 2%Q with (inject_Z 2); rewrite <- inject_Z_mult, <- inject_Z_opp, <- Zlt_Qlt; lia).
      rewrite <- QQ in U, L. split; apply Qmult_lt_r with (z := inject_Z S); auto; lra. }
    exists ((q * inject_Z s1 - inject_Z a0) / inject_Z v0)%Q.
    assert (SG : forall w, w <> 0 -> (inject_Z (Z.sgn w) == 1)%Q \/ (inject_Z (Z.sgn w) == -1#1)%Q).
    { intros w Hw. destruct (Z.sgn_spec w) as [[? ->]|[[? ?]|[? ->]]]; [left; reflexivity|lia|right; reflexivity]. }
    constructor; [intros _; fold v0|constructor; [intros _; fold v1|constructor]].
    + setoid_replace (inject_Z a0 + inject_Z v0 * ((q * inject_Z s1 - inject_Z a0) / inject_Z v0))%Q with (q * inject_Z s1)%Q by (field; auto).
      unfold s1. destruct (SG v1 V1) as [-> | ->]; split; lra.
    + assert (E : (inject_Z a1 + inject_Z v1 * ((q * inject_Z s1 - inject_Z a0) / inject_Z v0) == - (q * inject_Z s0))%Q).
      { apply Qmult_inj_r with (inject_Z v0); auto.
        transitivity (inject_Z a1 * inject_Z v0 + inject_Z v1 * (q * inject_Z s1 - inject_Z a0))%Q; [field; auto|].
        transitivity (q * (inject_Z s0 * inject_Z v0 + inject_Z s1 * inject_Z v1) - inject_Z C - q * (inject_Z s0 * inject_Z v0))%Q; [rewrite QC; ring|].
        rewrite <- ES, QQ. ring. }
      rewrite E. unfold s0. destruct (SG v0 V0) as [-> | ->]; split; lra.
Qed.

Lemma full_strays_from : exists rows, path 10 [1; 0] [4; 2] full = Ok rows /\ In [3; 0] rows /\
  forall t, ~ touches [1; 0] [4; 2] t [3; 0].
Proof.
  eexists. split; [vm_compute; reflexivity|]. split; [cbn; tauto|]. intros t H. cbn [touches] in H.
  change (4 - 1) with 3 in H. change (2 - 0) with 2 in H.
  change (inject_Z 1) with 1%Q in H. change (inject_Z 3) with 3%Q in H. change (inject_Z 2) with 2%Q in H. change (inject_Z 0) with 0%Q in H. lra.
Qed.

(** ** As stated *)

Lemma actual_ends : forall fuel x0 x1,
  (1 <= length x0 <= 3)%nat -> length x1 = length x0 -> x0 <> x1 ->
  span x0 x1 <= 707 -> meets_origin x0 x1 -> (Z.to_nat (manhattan x0 x1) <= fuel)%nat ->
  exists rows, path fuel x0 x1 actual = Ok rows /\ path_between (some_closer x1) x0 x1 rows /\
    forall r, In r rows -> exists t, touches_from x0 x1 t r.
Proof.
  intros fuel x0 x1 H1 H2 H3 H4 H5 H6. destruct (line_ends false fuel x0 x1 H1 H2 H3 H4 H5 H6) as (rows & E & P & _ & T).
  exists rows. auto.
Qed.

Lemma full_ends : forall fuel x0 x1,
  (1 <= length x0 <= 3)%nat -> length x1 = length x0 -> x0 <> x1 ->
  span x0 x1 <= 707 -> meets_origin x0 x1 -> (Z.to_nat (manhattan x0 x1) <= fuel)%nat ->
  exists rows, path fuel x0 x1 full = Ok rows /\ path_between (one_closer x1) x0 x1 rows /\
    lenZ rows = manhattan x0 x1 + 1 /\
    forall r, In r rows -> exists t, touches_from x0 x1 t r.
Proof.
  intros fuel x0 x1 H1 H2 H3 H4 H5 H6. destruct (line_ends true fuel x0 x1 H1 H2 H3 H4 H5 H6) as (rows & E & P & L & T).
  exists rows. auto.
Qed.

Lemma never_ends : forall fuel x0 x1 mode, mode = actual \/ mode = full ->
  (1 <= length x0 <= 3)%nat -> length x1 = length x0 -> x0 <> x1 ->
  span x0 x1 <= 707 -> ~ meets_origin x0 x1 -> path fuel x0 x1 mode = NoFuel.
Proof.
  intros fuel x0 x1 mode [-> | ->] H1 H2 H3 H4 H5; cbn [path]; apply line_never_ends; auto.
Qed.

Lemma off_the_line : exists x0 x1 rows r,
  length x0 = 2%nat /\ length x1 = 2%nat /\ path 10 x0 x1 full = Ok rows /\ In r rows /\
  forall t, ~ touches x0 x1 t r.
Proof.
  destruct full_strays_from as (rows & E & I & T). exists [1; 0], [4; 2], rows, [3; 0]. auto.
Qed.
