(** * LineProofs: the [actual] and [full] paths (proofs only). *)

From Coq Require Import ZArith QArith Qabs List Bool Lia Lqa.
From Verif Require Import Base BaseLemmas Path SpecPath PathProofs.
Import ListNotations.
Open Scope Z_scope.

Definition vv (d : dimn) : Z := d_to d - d_from d.
Definition aa (d : dimn) : Z := Z.abs (vv d).
Definition uu (d : dimn) : Q := / inject_Z (2 * aa d).

Lemma Qltb_lt : forall a b, Qltb a b = true <-> (a < b)%Q.
Proof.
  intros. unfold Qltb. rewrite negb_true_iff. split; intros H.
  - apply Qnot_le_lt. intros L. apply Qle_bool_iff in L. congruence.
  - destruct (Qle_bool b a) eqn:E; auto. apply Qle_bool_iff in E. apply Qle_not_lt in E. contradiction.
Qed.

Lemma Qltb_ge : forall a b, Qltb a b = false <-> (b <= a)%Q.
Proof.
  intros. unfold Qltb. rewrite negb_false_iff. apply Qle_bool_iff.
Qed.

(** State of one dimension: [m] crossings so far; [w] and [tau] are common to all. *)
Record ok (w tau : Q) (d : dimn) (m : Z) : Prop := {
  o_c : d_c d = d_from d + sign d * m;
  o_m : 0 <= m <= aa d;
  o_w : active d = true -> (inject_Z (d_from d) == w * slope d)%Q;
  o_next : active d = true -> (d_next d == inject_Z (sign d) * (inject_Z m + (1 # 2)))%Q;
  o_x : active d = true -> (d_x d == inject_Z (d_from d) + slope d * tau)%Q }.

Lemma active_iff : forall d, active d = true <-> vv d <> 0.
Proof. intros. unfold active, vv. rewrite negb_true_iff, Z.eqb_neq. tauto. Qed.

Lemma uu_pos : forall d, active d = true -> (0 < uu d)%Q.
Proof.
  intros d H. apply active_iff in H. unfold uu. apply Qinv_lt_0_compat.
  change 0%Q with (inject_Z 0). rewrite <- Zlt_Qlt. unfold aa. lia.
Qed.

Lemma uu_a : forall d, active d = true -> (inject_Z (aa d) * uu d == 1 # 2)%Q.
Proof.
  intros d H. apply active_iff in H. unfold uu. rewrite inject_Z_mult.
  assert (~ inject_Z (aa d) == 0)%Q.
  { change 0%Q with (inject_Z 0). rewrite inject_Z_injective. unfold aa. lia. }
  field. auto.
Qed.

Lemma uu_v : forall d, active d = true -> (uu d * slope d == inject_Z (sign d) * (1 # 2))%Q.
Proof.
  intros d H. rewrite <- (uu_a d H). unfold slope.
  assert (E : d_to d - d_from d = sign d * aa d) by (unfold sign, aa, vv; rewrite Z.mul_comm; symmetry; apply Z.abs_sgn).
  rewrite E, inject_Z_mult. ring.
Qed.

Lemma dist_ok : forall w tau d m, ok w tau d m -> active d = true ->
  (dist d == inject_Z (2 * m + 1) * uu d - (w + tau))%Q.
Proof.
  intros w tau d m [Hc Hm Hw Hn Hx] Ha. specialize (Hw Ha). specialize (Hn Ha). specialize (Hx Ha).
  assert (Hv : (~ slope d == 0)%Q).
  { unfold slope. change 0%Q with (inject_Z 0). rewrite inject_Z_injective. apply active_iff in Ha. exact Ha. }
  unfold dist. rewrite Hn, Hx, Hw.
  assert (E : (inject_Z (sign d) * (inject_Z m + (1 # 2)) - (w * slope d + slope d * tau) ==
    (inject_Z (2 * m + 1) * uu d - (w + tau)) * slope d)%Q).
  { rewrite inject_Z_plus, inject_Z_mult. change (inject_Z 2) with 2%Q. change (inject_Z 1) with 1%Q.
    transitivity ((2 * inject_Z m + 1) * (uu d * slope d) - (w + tau) * slope d)%Q; [rewrite uu_v by auto; ring|ring]. }
  rewrite E. field. auto.
Qed.

(** ** The minimum *)

Lemma tmin_from_spec : forall l t, (tmin_from t l = t \/ exists d, In d l /\ tmin_from t l = dist d) /\
  (tmin_from t l <= t)%Q /\ forall d, In d l -> (tmin_from t l <= dist d)%Q.
Proof.
  induction l as [|d l IH]; intros t; cbn [tmin_from].
  - split; [auto|]. split; [apply Qle_refl|]. intros d [].
  - destruct (Qltb (dist d) t) eqn:E.
    + apply Qltb_lt in E. destruct (IH (dist d)) as (H1 & H2 & H3). split; [|split].
      * right. destruct H1 as [->|(d' & Hd' & ->)]; [exists d; simpl; auto|exists d'; simpl; auto].
      * apply Qlt_le_weak in E. eapply Qle_trans; eauto.
      * intros d' [<-|Hd']; auto.
    + apply Qltb_ge in E. destruct (IH t) as (H1 & H2 & H3). split; [|split]; auto.
      * destruct H1 as [->|(d' & Hd' & ->)]; [auto|right; exists d'; simpl; auto].
      * intros d' [<-|Hd']; auto. eapply Qle_trans; eauto.
Qed.

Lemma tmin_spec : forall l tm, tmin l = Some tm ->
  (exists d, In d l /\ active d = true /\ tm = dist d) /\
  forall d, In d l -> active d = true -> (tm <= dist d)%Q.
Proof.
  intros l tm H. unfold tmin in H. destruct (filter active l) as [|d l'] eqn:E; [discriminate|]. injection H as <-.
  assert (F : forall x, In x l /\ active x = true <-> In x (d :: l')) by (intros; rewrite <- E, filter_In; tauto).
  destruct (tmin_from_spec l' (dist d)) as (H1 & H2 & H3). split.
  - destruct H1 as [->|(d' & Hd' & ->)].
    + exists d. assert (In d (d :: l')) as Hd by (simpl; auto). apply F in Hd. tauto.
    + exists d'. assert (In d' (d :: l')) as Hd by (simpl; auto). apply F in Hd. tauto.
  - intros x Hx Ha. assert (Hin : In x (d :: l')) by (apply F; auto). destruct Hin as [<-|Hin]; auto.
Qed.

Lemma tmin_some : forall l d, In d l -> active d = true -> exists tm, tmin l = Some tm.
Proof.
  intros l d Hd Ha. unfold tmin. destruct (filter active l) as [|d' l'] eqn:E; [|eauto].
  assert (In d (filter active l)) by (apply filter_In; auto). rewrite E in H. destruct H.
Qed.

Lemma crosses_iff : forall l tm d, tmin l = Some tm -> In d l ->
  (crosses tm d = true <-> active d = true /\ (dist d - tm < 1 # 1000000)%Q).
Proof.
  intros l tm d H Hd. unfold crosses. rewrite andb_true_iff, Qltb_lt.
  split; intros [Ha HQ]; (split; [auto|]); destruct (tmin_spec l tm H) as [_ HM]; specialize (HM d Hd Ha);
  rewrite Qabs_pos in *; auto; lra.
Qed.

(** ** One turn *)

Definition left_of (d : dimn) (m : Z) : Z := aa d - m.

Lemma no_overshoot : forall w tau l ms tm, Forall2 (ok w tau) l ms -> tmin l = Some tm ->
  (forall d, In d l -> aa d <= 1000000) ->
  (exists d m, In (d, m) (combine l ms) /\ m < aa d) ->
  (forall d m, In (d, m) (combine l ms) -> crosses tm d = true -> m < aa d) /\
  (exists d m, In (d, m) (combine l ms) /\ crosses tm d = true).
Proof.
  intros w tau l ms tm HI HT Hb (dj & mj & Hj & Hlt).
  assert (HOK : forall d m, In (d, m) (combine l ms) -> ok w tau d m /\ In d l).
  { clear -HI. induction HI; intros d m Hd; [destruct Hd|]. destruct Hd as [E|Hd].
    - injection E as <- <-. split; simpl; auto.
    - destruct (IHHI _ _ Hd). split; simpl; auto. }
  assert (HEX : forall d, In d l -> exists m, In (d, m) (combine l ms)).
  { clear -HI. induction HI; intros d Hd; [destruct Hd|]. destruct Hd as [<-|Hd].
    - exists y. simpl; auto.
    - destruct (IHHI _ Hd) as (m & Hm). exists m. simpl; auto. }
  destruct (HOK _ _ Hj) as [Oj Ij].
  assert (Aj : active dj = true).
  { apply active_iff. pose proof (o_m _ _ _ _ Oj). unfold aa in *. lia. }
  pose proof (dist_ok _ _ _ _ Oj Aj) as Dj.
  destruct (tmin_spec l tm HT) as [(dm & Im & Am & Em) HM].
  assert (KEY : forall d m, In (d, m) (combine l ms) -> active d = true -> m = aa d -> (dist d - dist dj >= 1 # 1000000)%Q).
  { intros d m Hd Ha Hm. destruct (HOK _ _ Hd) as [O I]. rewrite (dist_ok _ _ _ _ O Ha), Dj.
    pose proof (uu_pos d Ha) as Up. pose proof (uu_pos dj Aj) as Upj.
    pose proof (uu_a d Ha) as Ua. pose proof (uu_a dj Aj) as Uaj. subst m.
    assert (B1 : (inject_Z (2 * mj + 1) * uu dj <= inject_Z (2 * aa dj - 1) * uu dj)%Q).
    { apply Qmult_le_compat_r; [|lra]. rewrite <- Zle_Qle. lia. }
    assert (HB : forall x, active x = true -> In x l -> (1 # 2000000 <= uu x)%Q).
    { intros x Hx Hxi. pose proof (Hb x Hxi) as Hbx. pose proof (uu_a x Hx) as Ux. pose proof (uu_pos x Hx) as Px.
      assert ((inject_Z (aa x) * uu x <= inject_Z 1000000 * uu x)%Q).
      { apply Qmult_le_compat_r; [rewrite <- Zle_Qle; auto|lra]. }
      change (inject_Z 1000000) with (1000000 # 1)%Q in H. lra. }
    pose proof (HB d Ha I). pose proof (HB dj Aj Ij).
    assert (E1 : (inject_Z (2 * aa d + 1) * uu d == 1 + uu d)%Q).
    { rewrite inject_Z_plus, inject_Z_mult. change (inject_Z 2) with 2%Q. change (inject_Z 1) with 1%Q.
      transitivity (2 * (inject_Z (aa d) * uu d) + uu d)%Q; [ring|]. rewrite Ua. ring. }
    assert (E2 : (inject_Z (2 * aa dj - 1) * uu dj == 1 - uu dj)%Q).
    { unfold Z.sub. rewrite inject_Z_plus, inject_Z_opp, inject_Z_mult. change (inject_Z 2) with 2%Q. change (inject_Z 1) with 1%Q.
      transitivity (2 * (inject_Z (aa dj) * uu dj) - uu dj)%Q; [ring|]. rewrite Uaj. ring. }
    lra. }
  assert (HMj : (tm <= dist dj)%Q) by (apply HM; auto).
  split.
  - intros d m Hd Hc. destruct (HOK _ _ Hd) as [O I]. apply (crosses_iff l tm d HT I) in Hc. destruct Hc as [Ha Hc].
    destruct (Z.eq_dec m (aa d)) as [E|E]; [|pose proof (o_m _ _ _ _ O); lia].
    exfalso. pose proof (KEY d m Hd Ha E). lra.
  - destruct (HEX dm Im) as (m & Hm). exists dm, m. split; auto. apply (crosses_iff l tm dm HT Im). split; auto. rewrite Em. lra.
Qed.

Lemma cross_ok : forall w tau tau' d m, ok w tau d m -> active d = true -> m < aa d -> ok w tau' (move tau' (cross d)) (m + 1).
Proof.
  intros w tau tau' d m [Hc Hm Hw Hn Hx] Ha Hlt.
  assert (E1 : sign (move tau' (cross d)) = sign d) by reflexivity.
  split; cbn [move cross d_c d_from d_to d_next d_x] in *.
  - rewrite E1, Hc. lia.
  - change (aa (move tau' (cross d))) with (aa d). lia.
  - intros _. apply Hw; auto.
  - intros _. rewrite E1, (Hn Ha), inject_Z_plus. change (inject_Z 1) with 1%Q. ring.
  - intros _. reflexivity.
Qed.

Lemma move_ok : forall w tau tau' d m, ok w tau d m -> ok w tau' (move tau' d) m.
Proof.
  intros w tau tau' d m [Hc Hm Hw Hn Hx]. split; cbn [move d_c d_from d_to d_next d_x] in *; auto.
  intros _. reflexivity.
Qed.

Definition next_m (tm : Q) (d : dimn) (m : Z) : Z := if crosses tm d then m + 1 else m.
Fixpoint next_ms (tm : Q) (l : list dimn) (ms : list Z) : list Z :=
  match l, ms with
  | d :: l', m :: ms' => next_m tm d m :: next_ms tm l' ms'
  | _, _ => []
  end.

Definition next_l (tm : Q) (l : list dimn) : list dimn := map (move tm) (cross_all tm l).

Lemma next_l_cons : forall tm d l, next_l tm (d :: l) = move tm (if crosses tm d then cross d else d) :: next_l tm l.
Proof. reflexivity. Qed.

Lemma next_ok : forall w tau tm l ms, Forall2 (ok w tau) l ms ->
  (forall d m, In (d, m) (combine l ms) -> crosses tm d = true -> m < aa d) ->
  Forall2 (ok w tm) (next_l tm l) (next_ms tm l ms).
Proof.
  intros w tau tm l ms H. induction H as [|d m l ms Hd H IH]; intros HN; [constructor|].
  rewrite next_l_cons. cbn [next_ms]. constructor.
  - unfold next_m. destruct (crosses tm d) eqn:E.
    + apply cross_ok with tau; auto.
      * unfold crosses in E. apply andb_true_iff in E. tauto.
      * apply HN; simpl; auto.
    + apply move_ok with tau; auto.
  - apply IH. intros; apply HN; simpl; auto.
Qed.

Definition to_l (l : list dimn) : list Z := map d_to l.
Definition remaining (l : list dimn) (ms : list Z) : Z := zsum (map (fun dm => aa (fst dm) - snd dm) (combine l ms)).

Lemma ok_reach : forall w tau d m, ok w tau d m -> (d_c d = d_to d <-> m = aa d).
Proof.
  intros w tau d m [Hc Hm _ _ _]. rewrite Hc. unfold aa, vv, sign in *.
  destruct (Z.lt_trichotomy (d_to d - d_from d) 0) as [L|[E|L]].
  - rewrite (Z.sgn_neg _ L). lia.
  - rewrite E in *. cbn [Z.sgn Z.abs] in *. lia.
  - rewrite (Z.sgn_pos _ L). lia.
Qed.

Lemma ok_sign : forall w tau d m, ok w tau d m -> m < aa d -> d_c d <> d_to d /\ Z.sgn (d_to d - d_c d) = sign d.
Proof.
  intros w tau d m O Hlt. split; [rewrite (ok_reach _ _ _ _ O); lia|]. destruct O as [Hc Hm _ _ _].
  rewrite Hc. unfold aa, vv, sign in *.
  destruct (Z.lt_trichotomy (d_to d - d_from d) 0) as [L|[E|L]].
  - rewrite (Z.sgn_neg (d_to d - d_from d) L). apply Z.sgn_neg. lia.
  - rewrite E in *. cbn [Z.sgn Z.abs] in *. lia.
  - rewrite (Z.sgn_pos (d_to d - d_from d) L). apply Z.sgn_pos. lia.
Qed.

Lemma remaining_cons : forall d l m ms, remaining (d :: l) (m :: ms) = (aa d - m) + remaining l ms.
Proof. reflexivity. Qed.

Lemma remaining_nonneg : forall w tau l ms, Forall2 (ok w tau) l ms -> 0 <= remaining l ms.
Proof.
  intros w tau l ms H. induction H; [reflexivity|]. rewrite remaining_cons. pose proof (o_m _ _ _ _ H). lia.
Qed.

Lemma reached_iff : forall w tau l ms, Forall2 (ok w tau) l ms -> (reached l = true <-> remaining l ms = 0).
Proof.
  intros w tau l ms H. induction H; [cbn; tauto|]. rewrite remaining_cons. cbn [reached forallb].
  rewrite andb_true_iff, Z.eqb_eq, (ok_reach _ _ _ _ H). unfold reached in IHForall2. rewrite IHForall2.
  pose proof (o_m _ _ _ _ H). pose proof (remaining_nonneg _ _ _ _ H0). lia.
Qed.

Lemma reached_to : forall l, reached l = true -> cindex l = to_l l.
Proof.
  induction l as [|d l IH]; intros H; [reflexivity|]. cbn [reached forallb] in H. apply andb_true_iff in H.
  destruct H as [H1 H2]. apply Z.eqb_eq in H1. cbn [cindex to_l map]. f_equal; auto.
Qed.

Lemma remaining_ex : forall w tau l ms, Forall2 (ok w tau) l ms -> 0 < remaining l ms ->
  exists d m, In (d, m) (combine l ms) /\ m < aa d.
Proof.
  intros w tau l ms H. induction H; intros HP; [cbn in HP; lia|]. rewrite remaining_cons in HP.
  destruct (Z.eq_dec (aa x - y) 0) as [E|E].
  - destruct IHForall2 as (d & m & Hd & Hm); [lia|]. exists d, m. simpl; auto.
  - exists x, y. pose proof (o_m _ _ _ _ H). simpl. split; auto. lia.
Qed.

Lemma aa_next : forall tm d, aa (move tm (if crosses tm d then cross d else d)) = aa d.
Proof. intros. destruct (crosses tm d); reflexivity. Qed.

Lemma remaining_next : forall tm l ms, length l = length ms ->
  remaining (next_l tm l) (next_ms tm l ms) = remaining l ms - Z.of_nat (length (filter (crosses tm) l)).
Proof.
  intros tm l. induction l as [|d l IH]; intros [|m ms] HL; simpl in HL; try discriminate; [reflexivity|].
  rewrite next_l_cons. cbn [next_ms filter]. rewrite !remaining_cons, aa_next, IH by lia. unfold next_m.
  destruct (crosses tm d); cbn [length]; lia.
Qed.

Lemma crossed_pos : forall tm l d, In d l -> crosses tm d = true -> (0 < length (filter (crosses tm) l))%nat.
Proof.
  intros tm l d H1 H2. assert (H : In d (filter (crosses tm) l)) by (apply filter_In; auto).
  destruct (filter (crosses tm) l); [destruct H|simpl; lia].
Qed.

Lemma to_next : forall tm l, to_l (next_l tm l) = to_l l.
Proof.
  intros tm l. unfold to_l, next_l, cross_all. rewrite !map_map. apply map_ext. intros d. destruct (crosses tm d); reflexivity.
Qed.

(** ** Rows of one turn *)

Lemma cindex_next : forall tm l, cindex (next_l tm l) = map (fun d => if crosses tm d then d_c d + sign d else d_c d) l.
Proof.
  intros tm l. unfold cindex, next_l, cross_all. rewrite !map_map. apply map_ext. intros d. destruct (crosses tm d); reflexivity.
Qed.

Lemma actual_step : forall w tau tm l ms, Forall2 (ok w tau) l ms ->
  (forall d m, In (d, m) (combine l ms) -> crosses tm d = true -> m < aa d) ->
  closer (to_l l) (cindex l) (cindex (next_l tm l)).
Proof.
  intros w tau tm l ms H. induction H as [|d m l ms Hd H IH]; intros HN; [exact I|].
  rewrite next_l_cons. cbn [to_l cindex map closer]. split.
  - destruct (crosses tm d) eqn:E; cbn [move cross d_c]; [right|auto].
    destruct (ok_sign _ _ _ _ Hd) as [N S]; [apply HN; simpl; auto|]. rewrite S. auto.
  - apply IH. intros; apply HN; simpl; auto.
Qed.

Lemma cindex_neq : forall tm l d, In d l -> crosses tm d = true -> cindex l <> cindex (next_l tm l).
Proof.
  intros tm l d. rewrite cindex_next. unfold cindex. induction l as [|x l IH]; intros Hd Hc E; [destruct Hd|].
  cbn [map] in E. injection E as E1 E2. destruct Hd as [->|Hd]; [|apply IH; auto].
  rewrite Hc in E1. unfold crosses in Hc. apply andb_true_iff in Hc. destruct Hc as [Hc _]. apply active_iff in Hc.
  unfold sign, vv in *. assert (Z.sgn (d_to d - d_from d) <> 0) by (rewrite Z.sgn_null_iff; lia). lia.
Qed.

(** The rows stored by [cross_each]: a chain from the current row to the next one. *)
Lemma one_closer_mid : forall g1 x1 g x y, length g1 = length x1 ->
  one_closer g x y -> one_closer (g1 ++ g) (x1 ++ x) (x1 ++ y).
Proof.
  induction g1 as [|g0 g1 IH]; intros [|x0 x1] g x y HL H; simpl in *; try discriminate; auto.
Qed.

Lemma full_rows : forall w tau tm todo ms done, Forall2 (ok w tau) todo ms ->
  (forall d m, In (d, m) (combine todo ms) -> crosses tm d = true -> m < aa d) ->
  let rows := cross_each tm done todo in
  consecutive (one_closer (to_l done ++ to_l todo)) (cindex (done ++ todo) :: rows) /\
  last (cindex (done ++ todo) :: rows) [] = cindex done ++ cindex (next_l tm todo) /\
  length rows = length (filter (crosses tm) todo).
Proof.
  intros w tau tm todo ms done H. revert done. induction H as [|d m l ms Hd H IH]; intros done HN; cbv zeta.
  - cbn [cross_each consecutive last filter length]. unfold cindex. rewrite map_app. cbn. auto.
  - assert (HN' : forall d m, In (d, m) (combine l ms) -> crosses tm d = true -> m < aa d) by (intros; apply HN; simpl; auto).
    rewrite next_l_cons. cbn [cross_each filter]. destruct (crosses tm d) eqn:E.
    + destruct (IH (done ++ [cross d]) HN') as (I1 & I2 & I3). cbv zeta in *.
      rewrite <- app_assoc in I1, I2. cbn [app] in I1, I2.
      replace (to_l (done ++ [cross d]) ++ to_l l) with (to_l done ++ to_l (d :: l)) in I1
        by (unfold to_l; rewrite map_app, <- app_assoc; reflexivity).
      split; [|split].
      * set (T := to_l done ++ to_l (d :: l)) in *.
        change (consecutive (one_closer T) (cindex (done ++ d :: l) :: cindex (done ++ cross d :: l) :: cross_each tm (done ++ [cross d]) l))
          with (one_closer T (cindex (done ++ d :: l)) (cindex (done ++ cross d :: l)) /\
            consecutive (one_closer T) (cindex (done ++ cross d :: l) :: cross_each tm (done ++ [cross d]) l)).
        split; [|exact I1]. unfold T, cindex. rewrite !map_app.
        apply one_closer_mid; [unfold to_l; rewrite !map_length; auto|].
        cbn [to_l map one_closer]. right.
        destruct (ok_sign _ _ _ _ Hd) as [N S]; [apply HN; simpl; auto|]. rewrite S. auto.
      * change (last (cindex (done ++ d :: l) :: cindex (done ++ cross d :: l) :: cross_each tm (done ++ [cross d]) l) [])
          with (last (cindex (done ++ cross d :: l) :: cross_each tm (done ++ [cross d]) l) []).
        rewrite I2. unfold cindex. rewrite map_app, <- app_assoc. reflexivity.
      * cbn [length]. lia.
    + destruct (IH (done ++ [d]) HN') as (I1 & I2 & I3). cbv zeta in *.
      rewrite <- app_assoc in I1, I2. cbn [app] in I1, I2.
      replace (to_l (done ++ [d]) ++ to_l l) with (to_l done ++ to_l (d :: l)) in I1
        by (unfold to_l; rewrite map_app, <- app_assoc; reflexivity).
      split; [exact I1|]. split; [|exact I3]. rewrite I2. unfold cindex. rewrite map_app, <- app_assoc. reflexivity.
Qed.

(** ** The loop *)

Lemma consecutive_app : forall (R : list Z -> list Z -> Prop) l1 l2 a, consecutive R (a :: l1) ->
  consecutive R (last (a :: l1) [] :: l2) -> consecutive R (a :: l1 ++ l2).
Proof.
  intros R l1. induction l1 as [|b l1 IH]; intros l2 a H1 H2; [exact H2|].
  change (consecutive R (a :: (b :: l1) ++ l2)) with (R a b /\ consecutive R (b :: l1 ++ l2)).
  destruct H1 as [H1 H3]. split; auto.
Qed.

Lemma last_app2 : forall (l1 l2 : list (list Z)) a, last (a :: l1 ++ l2) [] = last (last (a :: l1) [] :: l2) [].
Proof.
  induction l1 as [|b l1 IH]; intros l2 a; [reflexivity|]. 
  change (last (a :: (b :: l1) ++ l2) []) with (last (b :: l1 ++ l2) []). rewrite IH. reflexivity.
Qed.

Definition stepR (fl : bool) (goal : list Z) : list Z -> list Z -> Prop :=
  if fl then one_closer goal else some_closer goal.

Lemma line_loop_ok : forall fl w n l ms tau fuel, Forall2 (ok w tau) l ms ->
  (forall d, In d l -> aa d <= 1000000) -> 0 < remaining l ms <= Z.of_nat n -> (n <= fuel)%nat ->
  exists rows, line_loop fl fuel l = Ok rows /\
    consecutive (stepR fl (to_l l)) (cindex l :: rows) /\ last (cindex l :: rows) [] = to_l l /\
    (fl = true -> lenZ rows = remaining l ms).
Proof.
  intros fl w. induction n as [|n IH]; intros l ms tau fuel HI Hb Hr Hf; [lia|].
  destruct fuel as [|fuel]; [lia|]. cbn [line_loop].
  pose proof (remaining_ex _ _ _ _ HI ltac:(lia)) as HEX.
  destruct HEX as (dj & mj & Hj & Hlt).
  assert (HC : forall d m, In (d, m) (combine l ms) -> ok w tau d m /\ In d l).
  { clear -HI. induction HI; intros d m Hd; [destruct Hd|]. destruct Hd as [E|Hd].
    - injection E as <- <-. split; simpl; auto.
    - destruct (IHHI _ _ Hd). split; simpl; auto. }
  destruct (HC _ _ Hj) as [Oj Ij].
  destruct (tmin_some l dj Ij) as (tm & HT).
  { apply active_iff. pose proof (o_m _ _ _ _ Oj). unfold aa in *. lia. }
  rewrite HT. fold (next_l tm l).
  destruct (no_overshoot w tau l ms tm HI HT Hb ltac:(eauto)) as (HN & (dm & m & Hdm & Hcr)).
  pose proof (next_ok w tau tm l ms HI HN) as HI'.
  assert (HL : length l = length ms) by (clear -HI; induction HI; simpl; auto).
  pose proof (remaining_next tm l ms HL) as HR.
  pose proof (crossed_pos tm l dm (proj2 (HC _ _ Hdm)) Hcr) as HP.
  pose proof (remaining_nonneg _ _ _ _ HI') as HNN.
  set (rows := if fl then cross_each tm [] l else [cindex (next_l tm l)]).
  assert (HROW : consecutive (stepR fl (to_l l)) (cindex l :: rows) /\
    last (cindex l :: rows) [] = cindex (next_l tm l) /\ (fl = true -> lenZ rows = Z.of_nat (length (filter (crosses tm) l)))).
  { unfold rows, stepR. destruct fl.
    - destruct (full_rows w tau tm l ms [] HI HN) as (F1 & F2 & F3). cbn [app to_l map cindex] in F1, F2.
      split; [exact F1|]. split; [exact F2|]. intros _. unfold lenZ. rewrite F3. auto.
    - split; [|split; [reflexivity|discriminate]].
      split; [|exact I]. split; [apply actual_step with w tau ms; auto|].
      apply cindex_neq with dm; auto. apply (HC _ _ Hdm). }
  destruct HROW as (R1 & R2 & R3).
  destruct (reached (next_l tm l)) eqn:ER.
  - exists rows. split; [auto|]. split; [auto|]. pose proof ER as ER0. rewrite (reached_iff _ _ _ _ HI') in ER.
    split; [|intros Hfl; rewrite (R3 Hfl); lia]. rewrite R2.
    rewrite reached_to by auto. apply to_next.
  - assert (HNZ : remaining (next_l tm l) (next_ms tm l ms) <> 0).
    { intros E. rewrite <- (reached_iff _ _ _ _ HI') in E. congruence. }
    destruct (IH (next_l tm l) (next_ms tm l ms) tm fuel HI') as (rest & E & S1 & S2 & S3); try lia.
    { intros d Hd. unfold next_l, cross_all in Hd. rewrite map_map in Hd. apply in_map_iff in Hd.
      destruct Hd as (x & <- & Hx). rewrite aa_next. auto. }
    rewrite E, bind_Ok. exists (rows ++ rest). split; [auto|]. rewrite to_next in *.
    split; [|split].
    + apply consecutive_app; auto. rewrite R2. auto.
    + rewrite last_app2, R2. auto.
    + intros Hfl. rewrite lenZ_app, (R3 Hfl), (S3 Hfl). lia.
Qed.

(** ** Start *)

Lemma tget_ok : forall l i, (1 < lenZ l \/ i = 0) -> 0 <= i < lenZ l -> tget l i = Ok (zn l i).
Proof.
  intros l i H Hi. unfold tget. destruct (lenZ l =? 1) eqn:E.
  - replace i with 0 by lia. apply vget_ok. lia.
  - apply vget_ok. lia.
Qed.

Definition mk (p q : Z) : dimn := mkdimn p q p (inject_Z (Z.sgn (q - p)) * (1 # 2)) (inject_Z p).
Fixpoint mks (x0 x1 : list Z) : list dimn :=
  match x0, x1 with p :: x0', q :: x1' => mk p q :: mks x0' x1' | _, _ => [] end.

Lemma line_init_ok : forall x1 x0 i, 0 <= i -> i + lenZ x0 = lenZ x1 -> (1 < lenZ x1 \/ i = 0 \/ x0 = []) ->
  (forall k, 0 <= k < lenZ x0 -> Z.abs (zn x1 (i + k) - zn x0 k) < 2 ^ 31) ->
  line_init x0 x1 i = Ok (mks x0 (skipn (Z.to_nat i) x1)).
Proof.
  intros x1 x0. induction x0 as [|p x0 IH]; intros i Hi HL HD HB; [reflexivity|].
  rewrite lenZ_cons in HL. pose proof (lenZ_nonneg _ x0). cbn [line_init]. unfold line_axis.
  assert (HD' : 1 < lenZ x1 \/ i = 0) by (destruct HD as [|[|]]; auto; discriminate).
  rewrite tget_ok by lia. rewrite bind_Ok. rewrite lenZ_cons in HB.
  pose proof (HB 0 ltac:(lia)) as H0. rewrite Z.add_0_r in H0. change (zn (p :: x0) 0) with p in H0.
  change (2 ^ 31) with 2147483648 in *.
  rewrite i32_ok by (change (2 ^ 31) with 2147483648; lia). rewrite !bind_Ok.
  rewrite IH.
  - rewrite bind_Ok. assert (E : skipn (Z.to_nat i) x1 = zn x1 i :: skipn (Z.to_nat (i + 1)) x1).
    { replace (Z.to_nat (i + 1)) with (S (Z.to_nat i)) by lia. unfold zn, lenZ in *.
      assert (L : (Z.to_nat i < length x1)%nat) by lia. clear -L. revert x1 L. induction (Z.to_nat i) as [|n IH]; intros [|a l] L; simpl in *; try lia; auto.
      apply IH. lia. }
    rewrite E. reflexivity.
  - lia.
  - lia.
  - destruct HD'; [auto|]. subst i. destruct x0; [auto|]. rewrite lenZ_cons in HL. pose proof (lenZ_nonneg _ x0). lia.
  - intros k Hk. specialize (HB (k + 1) ltac:(lia)). rewrite zn_cons in HB by lia.
    replace (i + 1 + k) with (i + (k + 1)) by lia. auto.
Qed.

Lemma mks_facts : forall w x0 x1, length x1 = length x0 ->
  Forall2 (fun a b => a <> b -> (inject_Z a == w * inject_Z (b - a))%Q) x0 x1 ->
  Forall2 (ok w 0) (mks x0 x1) (repeat 0 (length x0)) /\
  cindex (mks x0 x1) = x0 /\ to_l (mks x0 x1) = x1 /\ map d_from (mks x0 x1) = x0 /\
  remaining (mks x0 x1) (repeat 0 (length x0)) = manhattan x0 x1.
Proof.
  intros w x0 x1 HL HF. induction HF as [|p q x0 x1 H HF IH]; [cbn; auto|].
  simpl in HL. destruct IH as (I1 & I2 & I3 & I4 & I5); [lia|]. cbn [mks length repeat]. split; [|split; [|split; [|split]]].
  - constructor; auto. split; cbn [mk d_c d_from d_to d_next d_x].
    + unfold sign; cbn [mk d_c d_from d_to]. lia.
    + unfold aa, vv; cbn [mk d_c d_from d_to]. lia.
    + intros Ha. apply active_iff in Ha. unfold vv in Ha; cbn [mk d_from d_to] in Ha. unfold slope; cbn [mk d_from d_to].
      apply H. lia.
    + intros _. unfold sign; cbn [mk d_from d_to]. change (inject_Z 0) with 0%Q. ring.
    + intros _. ring.
  - cbn [cindex map mk d_c]. f_equal. exact I2.
  - cbn [to_l map mk d_to]. f_equal. exact I3.
  - cbn [map mk d_from]. f_equal. exact I4.
  - rewrite remaining_cons. cbn [manhattan]. rewrite I5. unfold aa, vv; cbn [mk d_from d_to]. lia.
Qed.

Lemma mks_aa : forall x0 x1 d, In d (mks x0 x1) -> aa d <= span x0 x1.
Proof.
  induction x0 as [|p x0 IH]; intros [|q x1] d Hd; simpl in Hd; try tauto. cbn [span].
  destruct Hd as [<-|Hd].
  - unfold aa, vv; cbn [mk d_from d_to]. lia.
  - specialize (IH _ _ Hd). lia.
Qed.

Lemma span_at : forall x0 x1 k, length x1 = length x0 -> 0 <= k < lenZ x0 -> Z.abs (zn x1 k - zn x0 k) <= span x0 x1.
Proof.
  induction x0 as [|p x0 IH]; intros [|q x1] k HL Hk; simpl in HL; try discriminate.
  - unfold lenZ in Hk; simpl in Hk; lia.
  - rewrite lenZ_cons in Hk. cbn [span]. destruct (Z.eq_dec k 0) as [->|Hk0].
    + change (zn (q :: x1) 0) with q. change (zn (p :: x0) 0) with p. lia.
    + replace k with (k - 1 + 1) by lia. rewrite !zn_cons by lia. specialize (IH x1 (k - 1) ltac:(lia) ltac:(lia)). lia.
Qed.

Lemma manhattan_pos : forall x0 x1, length x1 = length x0 -> x0 <> x1 -> 0 < manhattan x0 x1.
Proof.
  induction x0 as [|p x0 IH]; intros [|q x1] HL HN; simpl in *; try discriminate; try congruence.
  assert (G : forall a b, 0 <= manhattan a b) by (induction a; intros [|]; simpl; try lia; specialize (IHa l); lia).
  destruct (Z.eq_dec p q) as [->|Hp]; [|specialize (G x0 x1); lia].
  assert (0 < manhattan x0 x1) by (apply IH; [lia|congruence]). lia.
Qed.

Lemma line_start : forall x0 x1, (1 <= length x0 <= 3)%nat -> length x1 = length x0 -> span x0 x1 <= 1000000 ->
  (3 <? lenZ x0) = false /\ line_init x0 x1 0 = Ok (mks x0 x1).
Proof.
  intros x0 x1 HL HL' HS. split; [unfold lenZ; lia|].
  rewrite line_init_ok; [reflexivity|lia|unfold lenZ; lia|auto|].
  intros k Hk. rewrite Z.add_0_l. pose proof (span_at x0 x1 k HL' Hk). change (2 ^ 31) with 2147483648. lia.
Qed.

Lemma line_ok : forall fl fuel x0 x1, (1 <= length x0 <= 3)%nat -> length x1 = length x0 -> x0 <> x1 ->
  span x0 x1 <= 1000000 -> through_origin x0 x1 -> (Z.to_nat (manhattan x0 x1) <= fuel)%nat ->
  exists rows, line fl fuel x0 x1 = Ok rows /\ path_between (stepR fl x1) x0 x1 rows /\
    (fl = true -> lenZ rows = manhattan x0 x1 + 1).
Proof.
  intros fl fuel x0 x1 HL HL' HN HS (w & HW) Hf.
  destruct (line_start x0 x1 HL HL' HS) as [E1 E2]. unfold line. rewrite E1, E2, bind_Ok.
  destruct (mks_facts w x0 x1 HL' HW) as (F1 & F2 & F3 & F4 & F5).
  pose proof (manhattan_pos x0 x1 HL' HN) as HM.
  destruct (line_loop_ok fl w (Z.to_nat (manhattan x0 x1)) (mks x0 x1) _ _ fuel F1) as (rows & E & R1 & R2 & R3); auto.
  - intros d Hd. apply mks_aa in Hd. lia.
  - rewrite F5. lia.
  - rewrite E, bind_Ok. exists (cindex (mks x0 x1) :: rows). split; auto. rewrite F2, F3 in *. split; [split; [|split]|]; auto.
    intros Hfl. rewrite lenZ_cons, (R3 Hfl), F5. lia.
Qed.
