(** * PathSym: symmetries of the paths (proofs only). *)

From Coq Require Import ZArith QArith Qabs List Bool Lia Lqa Permutation.
From Verif Require Import Base BaseLemmas Path SpecPath SpecPathSym PathProofs LineProofs LineGeom PathTop.
Import ListNotations.
Open Scope Z_scope.

(** ** Mirroring: [actual] and [full] *)

Definition neg (d : dimn) : dimn :=
  mkdimn (- d_from d) (- d_to d) (- d_c d) (- d_next d) (- d_x d).

Inductive mir : list Z -> list dimn -> list dimn -> Prop :=
| mir_nil : mir [] [] []
| mir_pos : forall s l l' d, mir s l l' -> mir (1 :: s) (d :: l) (d :: l')
| mir_neg : forall s l l' d, mir s l l' -> mir (-1 :: s) (d :: l) (neg d :: l').

Lemma neg_active : forall d, active (neg d) = active d.
Proof.
  intros d. unfold active. cbn [neg d_to d_from]. f_equal.
  destruct (d_to d - d_from d =? 0) eqn:E; [rewrite Z.eqb_eq in *; lia|rewrite Z.eqb_neq in *; lia].
Qed.

Lemma neg_sign : forall d, sign (neg d) = - sign d.
Proof.
  intros d. unfold sign. cbn [neg d_to d_from]. replace (- d_to d - - d_from d) with (- (d_to d - d_from d)) by lia.
  apply Z.sgn_opp.
Qed.

Lemma neg_slope : forall d, slope (neg d) = (- slope d)%Q.
Proof.
  intros d. unfold slope. cbn [neg d_to d_from]. rewrite <- inject_Z_opp. f_equal. lia.
Qed.

Lemma Qopp_minus : forall a b, ((- a) - (- b) = - (a - b))%Q.
Proof.
  intros [a p] [b q]. unfold Qminus, Qplus, Qopp; cbn [Qnum Qden]. f_equal. ring.
Qed.

Lemma Qmult_opp_opp' : forall a b, ((- a) * (- b) = a * b)%Q.
Proof. intros [a p] [b q]. unfold Qmult, Qopp; cbn [Qnum Qden]. f_equal. ring. Qed.

Lemma Qinv_opp' : forall a, (/ (- a) = - / a)%Q.
Proof. intros [[|a|a] p]; reflexivity. Qed.

Lemma neg_dist : forall d, dist (neg d) = dist d.
Proof.
  intros d. unfold dist, Qdiv. rewrite neg_slope. cbn [neg d_next d_x].
  rewrite Qopp_minus, Qinv_opp'. apply Qmult_opp_opp'.
Qed.

Lemma neg_crosses : forall tm d, crosses tm (neg d) = crosses tm d.
Proof. intros. unfold crosses. rewrite neg_active, neg_dist. reflexivity. Qed.

Lemma neg_cross : forall d, cross (neg d) = neg (cross d).
Proof.
  intros d. unfold cross. rewrite neg_sign. cbn [neg d_from d_to d_c d_next d_x]. unfold neg. cbn [d_from d_to d_c d_next d_x].
  f_equal; [lia|]. rewrite inject_Z_opp. destruct (d_next d) as [n p]. unfold Qplus, Qopp, inject_Z; cbn [Qnum Qden]. f_equal. lia.
Qed.

Lemma neg_move : forall tm d, move tm (neg d) = neg (move tm d).
Proof.
  intros tm d. unfold move. rewrite neg_slope. cbn [neg d_from d_to d_c d_next d_x]. unfold neg. cbn [d_from d_to d_c d_next d_x].
  f_equal. rewrite inject_Z_opp. destruct tm as [n p]. unfold slope. unfold Qplus, Qmult, Qopp, inject_Z; cbn [Qnum Qden]. f_equal. ring.
Qed.

Lemma mir_app : forall s l l', mir s l l' -> forall s2 l2 l2', mir s2 l2 l2' -> mir (s ++ s2) (l ++ l2) (l' ++ l2').
Proof. intros s l l' H. induction H; intros; cbn [app]; [auto|constructor; auto|constructor; auto]. Qed.

Lemma mir_tmin : forall s l l', mir s l l' -> tmin l' = tmin l.
Proof.
  assert (G : forall l t, tmin_from t l = fold_left (fun t a => if Qltb a t then a else t) (map dist l) t).
  { induction l as [|d l IH]; intros t; [reflexivity|]. cbn [tmin_from map fold_left]. apply IH. }
  intros s l l' H.
  assert (E : map dist (filter active l') = map dist (filter active l)).
  { induction H; [reflexivity| |]; cbn [filter]; rewrite ?neg_active; destruct (active d); cbn [map]; rewrite ?neg_dist, ?IHmir; reflexivity. }
  unfold tmin. destruct (filter active l') as [|d' k']; destruct (filter active l) as [|d k]; try discriminate; auto.
  pose proof (f_equal (hd 0%Q) E) as E1. pose proof (f_equal (@tl Q) E) as E2. cbn [map hd tl] in E1, E2.
  rewrite !G, E1, E2. reflexivity.
Qed.

Lemma mir_cindex : forall s l l', mir s l l' -> cindex l' = mirror s (cindex l).
Proof.
  intros s l l' H. unfold cindex, mirror. induction H; [reflexivity| |]; cbn [map combine fst snd]; rewrite IHmir; f_equal; cbn [neg d_c]; lia.
Qed.

Lemma mir_map : forall f, (forall d, f (neg d) = neg (f d)) -> forall s l l', mir s l l' -> mir s (map f l) (map f l').
Proof. intros f Hf s l l' H. induction H; cbn [map]; [constructor|constructor; auto|rewrite Hf; constructor; auto]. Qed.

Lemma mir_cross_all : forall tm s l l', mir s l l' -> mir s (cross_all tm l) (cross_all tm l').
Proof.
  intros tm. apply mir_map. intros d. rewrite neg_crosses. destruct (crosses tm d); [apply neg_cross|reflexivity].
Qed.

Lemma mir_reached : forall s l l', mir s l l' -> reached l' = reached l.
Proof.
  intros s l l' H. unfold reached. induction H; [reflexivity| |]; cbn [forallb]; rewrite IHmir; f_equal.
  cbn [neg d_c d_to]. destruct (d_c d =? d_to d) eqn:E; [rewrite Z.eqb_eq in *; lia|rewrite Z.eqb_neq in *; lia].
Qed.

Lemma mir_cross_each : forall tm s l l', mir s l l' -> forall s0 k k', mir s0 k k' ->
  cross_each tm k' l' = map (mirror (s0 ++ s)) (cross_each tm k l).
Proof.
  intros tm s l l' H. induction H; intros s0 k k' HK; [reflexivity| |]; cbn [cross_each]; rewrite ?neg_crosses.
  - assert (EA : s0 ++ 1 :: s = (s0 ++ [1]) ++ s) by (rewrite <- app_assoc; reflexivity).
    assert (M1 : forall d, mir (s0 ++ [1]) (k ++ [d]) (k' ++ [d])).
    { intros d0. apply mir_app; auto. constructor. constructor. }
    destruct (crosses tm d); cbn [map].
    + rewrite EA, (IHmir _ _ _ (M1 (cross d))). f_equal. rewrite <- EA. apply mir_cindex. apply mir_app; auto. constructor; auto.
    + rewrite EA, (IHmir _ _ _ (M1 d)). reflexivity.
  - assert (EA : s0 ++ -1 :: s = (s0 ++ [-1]) ++ s) by (rewrite <- app_assoc; reflexivity).
    assert (M1 : forall d, mir (s0 ++ [-1]) (k ++ [d]) (k' ++ [neg d])).
    { intros d0. apply mir_app; auto. constructor. constructor. }
    destruct (crosses tm d); cbn [map].
    + rewrite neg_cross, EA, (IHmir _ _ _ (M1 (cross d))). f_equal. rewrite <- EA. apply mir_cindex. apply mir_app; auto. constructor; auto.
    + rewrite EA, (IHmir _ _ _ (M1 d)). reflexivity.
Qed.

Lemma mir_loop : forall fl fuel s l l', mir s l l' ->
  line_loop fl fuel l' = each (mirror s) (line_loop fl fuel l).
Proof.
  intros fl fuel. induction fuel as [|fuel IH]; intros s l l' H; [reflexivity|]. cbn [line_loop].
  rewrite (mir_tmin _ _ _ H). destruct (tmin l) as [tm|]; [|reflexivity].
  assert (HM : mir s (map (move tm) (cross_all tm l)) (map (move tm) (cross_all tm l'))).
  { apply mir_map; [apply neg_move|]. apply mir_cross_all. auto. }
  rewrite (mir_reached _ _ _ HM).
  assert (HR : (if fl then cross_each tm [] l' else [cindex (map (move tm) (cross_all tm l'))]) =
    map (mirror s) (if fl then cross_each tm [] l else [cindex (map (move tm) (cross_all tm l))])).
  { destruct fl; [apply (mir_cross_each tm s l l' H [] [] []); constructor|].
    cbn [map]. f_equal. apply mir_cindex. auto. }
  rewrite HR. destruct (reached _); [reflexivity|]. rewrite (IH _ _ _ HM).
  destruct (line_loop fl fuel _); cbn [bind each]; [rewrite map_app; reflexivity| | |]; reflexivity.
Qed.

Lemma mirror_length : forall s x, length s = length x -> length (mirror s x) = length x.
Proof. intros s x H. unfold mirror. rewrite map_length, combine_length. lia. Qed.

Lemma mirror_cons : forall a s p x, mirror (a :: s) (p :: x) = a * p :: mirror s x.
Proof. reflexivity. Qed.

Lemma mk_neg : forall p q, mk (- p) (- q) = neg (mk p q).
Proof.
  intros p q. unfold mk, neg. cbn [d_from d_to d_c d_next d_x]. f_equal.
  replace (- q - - p) with (- (q - p)) by lia. rewrite Z.sgn_opp, inject_Z_opp. unfold Qmult, Qopp, inject_Z; cbn [Qnum Qden]. f_equal. lia.
Qed.

Lemma mir_mks : forall s x0 x1, signs s -> length s = length x0 -> length x1 = length x0 ->
  mir s (mks x0 x1) (mks (mirror s x0) (mirror s x1)).
Proof.
  induction s as [|a s IH]; intros [|p x0] [|q x1] HS H1 H2; cbn [length] in *; try discriminate; [constructor|].
  inversion HS as [|? ? Ha HS']; subst. rewrite !mirror_cons. cbn [mks]. destruct Ha as [-> | ->].
  - rewrite !Z.mul_1_l. constructor. apply IH; auto.
  - replace (-1 * p) with (- p) by lia. replace (-1 * q) with (- q) by lia. rewrite mk_neg. constructor. apply IH; auto.
Qed.

Lemma span_mirror : forall s x0 x1, signs s -> length s = length x0 -> length x1 = length x0 ->
  span (mirror s x0) (mirror s x1) = span x0 x1.
Proof.
  induction s as [|a s IH]; intros [|p x0] [|q x1] HS H1 H2; cbn [length] in *; try discriminate; [reflexivity|].
  inversion HS as [|? ? Ha HS']; subst. rewrite !mirror_cons. cbn [span]. rewrite IH by auto. f_equal. destruct Ha as [-> | ->]; lia.
Qed.

Lemma line_start' : forall x0 x1, (length x0 <= 3)%nat -> length x1 = length x0 -> span x0 x1 < 2 ^ 31 ->
  line_init x0 x1 0 = Ok (mks x0 x1).
Proof.
  intros x0 x1 HL HL' HS. rewrite line_init_ok; [reflexivity|lia|unfold lenZ; lia|auto|].
  intros k Hk. pose proof (span_at x0 x1 k HL' Hk). replace (0 + k) with k by lia. lia.
Qed.

Lemma line_mirror : forall fl fuel s x0 x1, signs s -> length s = length x0 -> length x1 = length x0 -> span x0 x1 < 2 ^ 31 ->
  line fl fuel (mirror s x0) (mirror s x1) = each (mirror s) (line fl fuel x0 x1).
Proof.
  intros fl fuel s x0 x1 HS H1 H2 HB. unfold line. unfold lenZ. rewrite mirror_length by auto.
  destruct (3 <? Z.of_nat (length x0)) eqn:E; [reflexivity|]. rewrite Z.ltb_ge in E.
  rewrite (line_start' x0 x1) by (auto; lia).
  rewrite (line_start' (mirror s x0) (mirror s x1)); rewrite ?span_mirror, ?mirror_length by (auto; lia); auto; try lia.
  rewrite !bind_Ok. rewrite (mir_loop fl fuel s _ _ (mir_mks s x0 x1 HS H1 H2)).
  destruct (line_loop fl fuel (mks x0 x1)); cbn [bind each]; auto. cbn [map]. do 2 f_equal.
  apply mir_cindex. apply mir_mks; auto.
Qed.

(** ** Mirroring: [Bresenham] *)

Lemma bpos_opp : forall A k p q, bpos A k (- p) (- q) = - bpos A k p q.
Proof.
  intros A k p q. unfold bpos. replace (- q - - p) with (- (q - p)) by lia. rewrite Z.sgn_opp, Z.abs_opp. lia.
Qed.

Lemma brow_mirror : forall A k s x0 x1, signs s -> length s = length x0 -> length x1 = length x0 ->
  brow A k (mirror s x0) (mirror s x1) = mirror s (brow A k x0 x1).
Proof.
  induction s as [|a s IH]; intros [|p x0] [|q x1] HS H1 H2; cbn [length] in *; try discriminate; [reflexivity|].
  inversion HS as [|? ? Ha HS']; subst. rewrite !mirror_cons. cbn [brow]. rewrite mirror_cons. rewrite IH by auto. f_equal.
  destruct Ha as [-> | ->].
  - rewrite !Z.mul_1_l. reflexivity.
  - replace (-1 * p) with (- p) by lia. replace (-1 * q) with (- q) by lia. rewrite bpos_opp. lia.
Qed.

Lemma bres_mirror : forall fuel s x0 x1, signs s -> length s = length x0 -> length x1 = length x0 ->
  (1 <= length x0 <= 3)%nat -> x0 <> x1 -> span x0 x1 < 2 ^ 30 -> (Z.to_nat (span x0 x1) < fuel)%nat ->
  bresenham fuel (mirror s x0) (mirror s x1) = each (mirror s) (bresenham fuel x0 x1).
Proof.
  intros fuel s x0 x1 HS H1 H2 HL HN HB Hf. pose proof (span_pos x0 x1 H2 HN) as HP.
  rewrite (bresenham_ok fuel x0 x1) by (auto; lia).
  rewrite (bresenham_ok fuel (mirror s x0) (mirror s x1)); rewrite ?span_mirror, ?mirror_length by (auto; lia); auto; try lia.
  cbn [each]. rewrite map_map. f_equal. apply map_ext. intros k. apply brow_mirror; auto.
Qed.

(** ** Interchanging the axes: [Bresenham] *)

Lemma span_fold : forall x0 x1, length x1 = length x0 ->
  span x0 x1 = fold_right Z.max 0 (map (fun i => Z.abs (nth i x1 0 - nth i x0 0)) (seq 0 (length x0))).
Proof.
  induction x0 as [|p x0 IH]; intros [|q x1] H; cbn [length] in *; try discriminate; [reflexivity|].
  cbn [span seq map fold_right nth]. rewrite IH by lia. f_equal. rewrite <- seq_shift, map_map. reflexivity.
Qed.

Lemma fold_max_perm : forall l l', Permutation l l' -> fold_right Z.max 0 l = fold_right Z.max 0 l'.
Proof. intros l l' H. induction H; cbn [fold_right]; lia. Qed.

Lemma span_pick : forall p x0 x1, length x1 = length x0 -> Permutation p (seq 0 (length x0)) ->
  span (pick p x0) (pick p x1) = span x0 x1.
Proof.
  intros p x0 x1 HL HP. rewrite (span_fold x0 x1 HL).
  rewrite <- (fold_max_perm _ _ (Permutation_map (fun i => Z.abs (nth i x1 0 - nth i x0 0)) HP)).
  clear HP. induction p as [|i p IH]; [reflexivity|]. cbn [pick map span fold_right]. unfold pick in IH. rewrite IH. reflexivity.
Qed.

Lemma pick_length : forall p x, length (pick p x) = length p.
Proof. intros. apply map_length. Qed.

Lemma brow_nth : forall A k x0 x1 i, length x1 = length x0 -> (i < length x0)%nat ->
  nth i (brow A k x0 x1) 0 = bpos A k (nth i x0 0) (nth i x1 0).
Proof.
  induction x0 as [|p x0 IH]; intros [|q x1] [|i] HL Hi; cbn [length] in *; try discriminate; try lia; [reflexivity|].
  cbn [brow nth]. apply IH; lia.
Qed.

Lemma brow_pick : forall A k p x0 x1, length x1 = length x0 -> (forall i, In i p -> (i < length x0)%nat) ->
  brow A k (pick p x0) (pick p x1) = pick p (brow A k x0 x1).
Proof.
  intros A k p x0 x1 HL. induction p as [|i p IH]; intros Hp; [reflexivity|]. cbn [pick map brow]. unfold pick in IH.
  rewrite IH by (intros; apply Hp; simpl; auto). f_equal. symmetry. apply brow_nth; auto. apply Hp. simpl; auto.
Qed.

Lemma perm_in : forall p n, Permutation p (seq 0 n) -> forall i, In i p -> (i < n)%nat.
Proof. intros p n H i Hi. apply (Permutation_in _ H) in Hi. apply in_seq in Hi. lia. Qed.

Lemma perm_len : forall p n, Permutation p (seq 0 n) -> length p = n.
Proof. intros p n H. rewrite (Permutation_length H). apply seq_length. Qed.

Lemma bres_pick : forall fuel p x0 x1, Permutation p (seq 0 (length x0)) -> length x1 = length x0 ->
  (1 <= length x0 <= 3)%nat -> x0 <> x1 -> span x0 x1 < 2 ^ 30 -> (Z.to_nat (span x0 x1) < fuel)%nat ->
  bresenham fuel (pick p x0) (pick p x1) = each (pick p) (bresenham fuel x0 x1).
Proof.
  intros fuel p x0 x1 HP H2 HL HN HB Hf. pose proof (span_pos x0 x1 H2 HN) as HS. pose proof (perm_len _ _ HP) as HPL.
  rewrite (bresenham_ok fuel x0 x1) by (auto; lia).
  rewrite (bresenham_ok fuel (pick p x0) (pick p x1)); rewrite ?span_pick, ?pick_length by (auto; lia); auto; try lia.
  cbn [each]. rewrite map_map. f_equal. apply map_ext. intros k. apply brow_pick; auto. apply perm_in. auto.
Qed.

(** ** Interchanging the axes: [actual] *)

Record eqd (d d' : dimn) : Prop := {
  e_f : d_from d' = d_from d; e_t : d_to d' = d_to d; e_c : d_c d' = d_c d;
  e_n : (d_next d' == d_next d)%Q; e_x : (d_x d' == d_x d)%Q }.

Lemma eqd_refl : forall d, eqd d d.
Proof. intros d. split; reflexivity. Qed.

Lemma eqd_active : forall d d', eqd d d' -> active d' = active d.
Proof. intros d d' [F T _ _ _]. unfold active. rewrite F, T. reflexivity. Qed.

Lemma eqd_dist : forall d d', eqd d d' -> (dist d' == dist d)%Q.
Proof. intros d d' [F T _ N X]. unfold dist, slope. rewrite F, T, N, X. reflexivity. Qed.

Lemma eqd_crosses : forall tm tm' d d', eqd d d' -> (tm' == tm)%Q -> crosses tm' d' = crosses tm d.
Proof.
  intros tm tm' d d' E Ht. unfold crosses. rewrite (eqd_active _ _ E). f_equal. apply Qltb_ext.
  rewrite (eqd_dist _ _ E), Ht. reflexivity.
Qed.

Lemma eqd_step : forall tm tm' d d', eqd d d' -> (tm' == tm)%Q ->
  eqd (move tm (if crosses tm d then cross d else d)) (move tm' (if crosses tm' d' then cross d' else d')).
Proof.
  intros tm tm' d d' E Ht. rewrite (eqd_crosses tm tm' d d' E Ht). destruct E as [F T C N X].
  destruct (crosses tm d); split; cbn [move cross d_from d_to d_c d_next d_x]; auto; unfold sign, slope;
    cbn [cross d_from d_to]; rewrite ?F, ?T, ?C, ?N, ?Ht; reflexivity.
Qed.

Definition dd : dimn := mkdimn 0 0 0 0 0.

(** [l'] is [l] in the order [p]. *)
Definition perm (p : list nat) (l l' : list dimn) : Prop := Forall2 (fun i d' => eqd (nth i l dd) d') p l'.

Lemma perm_cindex : forall p l l', perm p l l' -> cindex l' = pick p (cindex l).
Proof.
  intros p l l' H. unfold cindex, pick. change 0 with (d_c dd). induction H as [|i d' p l' Hd H IH]; [reflexivity|].
  cbn [map]. rewrite IH, map_nth, (e_c _ _ Hd). reflexivity.
Qed.

Lemma perm_next : forall tm tm' p l l', perm p l l' -> (forall i, In i p -> (i < length l)%nat) -> (tm' == tm)%Q ->
  perm p (next_l tm l) (next_l tm' l').
Proof.
  intros tm tm' p l l' H Hp Ht. unfold perm in *. induction H as [|i d' p l' Hd H IH]; [constructor|].
  rewrite next_l_cons. constructor; [|apply IH; intros; apply Hp; simpl; auto].
  assert (Hi : (i < length l)%nat) by (apply Hp; simpl; auto).
  unfold next_l, cross_all. rewrite map_map.
  rewrite (nth_indep _ dd ((fun x => move tm (if crosses tm x then cross x else x)) dd)) by (rewrite map_length; auto).
  rewrite (map_nth (fun x => move tm (if crosses tm x then cross x else x))). apply eqd_step; auto.
Qed.

Lemma perm_left : forall p l l', perm p l l' -> Permutation p (seq 0 (length l)) ->
  forall d, In d l -> exists d', In d' l' /\ eqd d d'.
Proof.
  intros p l l' H HP d Hd. apply (In_nth _ _ dd) in Hd. destruct Hd as (i & Hi & <-).
  assert (Ip : In i p). { apply (Permutation_in _ (Permutation_sym HP)). apply in_seq. lia. }
  clear HP. induction H as [|j d' p l' Hd H IH]; [destruct Ip|]. destruct Ip as [-> | Ip].
  - exists d'. split; simpl; auto.
  - destruct (IH Ip) as (x & Hx & E). exists x. split; simpl; auto.
Qed.

Lemma perm_right : forall p l l', perm p l l' -> (forall i, In i p -> (i < length l)%nat) ->
  forall d', In d' l' -> exists d, In d l /\ eqd d d'.
Proof.
  intros p l l' H Hp. induction H as [|j x p l' Hd H IH]; intros d' Hd'; [destruct Hd'|]. destruct Hd' as [<-|Hd'].
  - exists (nth j l dd). split; auto. apply nth_In. apply Hp. simpl; auto.
  - apply IH; auto. intros; apply Hp; simpl; auto.
Qed.

Lemma perm_tmin : forall p l l', perm p l l' -> Permutation p (seq 0 (length l)) ->
  (tmin l = None /\ tmin l' = None) \/ exists tm tm', tmin l = Some tm /\ tmin l' = Some tm' /\ (tm' == tm)%Q.
Proof.
  intros p l l' H HP. pose proof (perm_in _ _ HP) as Hp.
  destruct (tmin l) as [tm|] eqn:E; destruct (tmin l') as [tm'|] eqn:E'; auto.
  - right. exists tm, tm'. split; auto. split; auto.
    destruct (tmin_spec _ _ E) as [(d & Id & Ad & ->) M]. destruct (tmin_spec _ _ E') as [(d' & Id' & Ad' & ->) M'].
    destruct (perm_left p l l' H HP d Id) as (x' & Ix' & X'). destruct (perm_right p l l' H Hp d' Id') as (x & Ix & X).
    pose proof (M' x' Ix' ltac:(rewrite (eqd_active _ _ X'); auto)). pose proof (M x Ix ltac:(rewrite <- (eqd_active _ _ X); auto)).
    pose proof (eqd_dist _ _ X). pose proof (eqd_dist _ _ X'). lra.
  - exfalso. destruct (tmin_spec _ _ E) as [(d & Id & Ad & _) _]. destruct (perm_left p l l' H HP d Id) as (x' & Ix' & X').
    destruct (tmin_some l' x' Ix' ltac:(rewrite (eqd_active _ _ X'); auto)). congruence.
  - exfalso. destruct (tmin_spec _ _ E') as [(d & Id & Ad & _) _]. destruct (perm_right p l l' H Hp d Id) as (x & Ix & X).
    destruct (tmin_some l x Ix ltac:(rewrite <- (eqd_active _ _ X); auto)). congruence.
Qed.

Lemma perm_reached : forall p l l', perm p l l' -> Permutation p (seq 0 (length l)) -> reached l' = reached l.
Proof.
  intros p l l' H HP. pose proof (perm_in _ _ HP) as Hp. unfold reached. apply eq_true_iff_eq. rewrite !forallb_forall. split.
  - intros A d Hd. destruct (perm_left p l l' H HP d Hd) as (d' & Id & [F T C _ _]). specialize (A d' Id). rewrite C, T in A. auto.
  - intros A d Hd. destruct (perm_right p l l' H Hp d Hd) as (d' & Id & [F T C _ _]). specialize (A d' Id). rewrite C, T. auto.
Qed.

Lemma next_length : forall tm l, length (next_l tm l) = length l.
Proof. intros. unfold next_l, cross_all. rewrite !map_length. reflexivity. Qed.

Lemma perm_loop : forall fuel p l l', perm p l l' -> Permutation p (seq 0 (length l)) ->
  line_loop false fuel l' = each (pick p) (line_loop false fuel l).
Proof.
  induction fuel as [|fuel IH]; intros p l l' H HP; [reflexivity|]. cbn [line_loop].
  destruct (perm_tmin p l l' H HP) as [[-> ->]|(tm & tm' & -> & -> & Ht)]; [reflexivity|].
  fold (next_l tm l) (next_l tm' l'). pose proof (perm_next tm tm' p l l' H (perm_in _ _ HP) Ht) as HN.
  assert (HP' : Permutation p (seq 0 (length (next_l tm l)))) by (rewrite next_length; auto).
  rewrite (perm_reached _ _ _ HN HP'), (perm_cindex _ _ _ HN). destruct (reached (next_l tm l)); [reflexivity|].
  rewrite (IH _ _ _ HN HP'). destruct (line_loop false fuel (next_l tm l)); reflexivity.
Qed.

Lemma mks_nth : forall x0 x1 i, length x1 = length x0 -> (i < length x0)%nat -> nth i (mks x0 x1) dd = mk (nth i x0 0) (nth i x1 0).
Proof.
  induction x0 as [|p x0 IH]; intros [|q x1] [|i] HL Hi; cbn [length] in *; try discriminate; try lia; [reflexivity|].
  cbn [mks nth]. apply IH; lia.
Qed.

Lemma mks_length : forall x0 x1, length x1 = length x0 -> length (mks x0 x1) = length x0.
Proof. induction x0 as [|p x0 IH]; intros [|q x1] HL; cbn [length mks] in *; try discriminate; auto. Qed.

Lemma perm_mks : forall p x0 x1, length x1 = length x0 -> (forall i, In i p -> (i < length x0)%nat) ->
  perm p (mks x0 x1) (mks (pick p x0) (pick p x1)).
Proof.
  intros p x0 x1 HL. unfold perm. induction p as [|i p IH]; intros Hp; [constructor|]. cbn [pick map mks]. constructor.
  - rewrite mks_nth by (auto; apply Hp; simpl; auto). apply eqd_refl.
  - apply IH. intros; apply Hp; simpl; auto.
Qed.

Lemma actual_pick : forall fuel p x0 x1, Permutation p (seq 0 (length x0)) -> length x1 = length x0 -> span x0 x1 < 2 ^ 31 ->
  line false fuel (pick p x0) (pick p x1) = each (pick p) (line false fuel x0 x1).
Proof.
  intros fuel p x0 x1 HP H2 HB. pose proof (perm_len _ _ HP) as HPL. unfold line, lenZ. rewrite pick_length, HPL.
  destruct (3 <? Z.of_nat (length x0)) eqn:E; [reflexivity|]. rewrite Z.ltb_ge in E.
  rewrite (line_start' x0 x1) by (auto; lia).
  rewrite (line_start' (pick p x0) (pick p x1)); rewrite ?span_pick, ?pick_length by (auto; lia); auto; try lia.
  rewrite !bind_Ok. pose proof (perm_mks p x0 x1 H2 (perm_in _ _ HP)) as HM.
  rewrite (perm_loop fuel p _ _ HM) by (rewrite mks_length; auto).
  destruct (line_loop false fuel (mks x0 x1)); cbn [bind each]; auto. cbn [map]. do 2 f_equal.
  apply perm_cindex. auto.
Qed.

(** ** Reversing: [Bresenham] *)

Lemma span_sym : forall x0 x1, span x1 x0 = span x0 x1.
Proof. induction x0 as [|p x0 IH]; intros [|q x1]; cbn [span]; auto. rewrite IH. lia. Qed.

Lemma manhattan_sym : forall x0 x1, manhattan x1 x0 = manhattan x0 x1.
Proof. induction x0 as [|p x0 IH]; intros [|q x1]; cbn [manhattan]; auto. rewrite IH. lia. Qed.

Lemma bpos_rev : forall A k p q, 0 < A -> Z.odd A = true -> 0 <= k <= A ->
  bpos A (A - k) p q = bpos A k q p.
Proof.
  intros A k p q HA HO Hk. unfold bpos. replace (p - q) with (- (q - p)) by lia. rewrite Z.sgn_opp, Z.abs_opp.
  set (b := Z.abs (q - p)). assert (E : q = p + Z.sgn (q - p) * b) by (unfold b; rewrite Z.mul_comm, Z.abs_sgn; lia).
  set (m := (2 * b * k + A) / (2 * A)).
  assert (M : (2 * b * (A - k) + A) / (2 * A) = b - m).
  { pose proof (Z.div_mod (2 * b * k + A) (2 * A) ltac:(lia)) as D. fold m in D.
    pose proof (Z.mod_pos_bound (2 * b * k + A) (2 * A) ltac:(lia)) as B.
    set (r := (2 * b * k + A) mod (2 * A)) in *.
    assert (r <> 0).
    { intros R0. rewrite R0 in D. apply Z.odd_spec in HO. destruct HO as (h & Hh). rewrite Hh in D. nia. }
    symmetry. apply Z.div_unique with (r := 2 * A - r); [lia|]. nia. }
  rewrite M. nia.
Qed.

Lemma brow_rev : forall A k x0 x1, 0 < A -> Z.odd A = true -> 0 <= k <= A ->
  brow A (A - k) x0 x1 = brow A k x1 x0.
Proof.
  intros A k x0. induction x0 as [|p x0 IH]; intros [|q x1] HA HO Hk; cbn [brow]; auto. rewrite IH by auto. f_equal.
  apply bpos_rev; auto.
Qed.

Lemma rev_map_zseq : forall (f : Z -> list Z) n,
  rev (map f (zseq 0 (S n))) = map (fun k => f (Z.of_nat n - k)) (zseq 0 (S n)).
Proof.
  intros f n. apply nth_ext with [] [].
  - rewrite rev_length, !map_length, !zseq_length. reflexivity.
  - intros i Hi. rewrite rev_length, map_length, zseq_length in Hi.
    rewrite rev_nth by (rewrite map_length, zseq_length; auto).
    rewrite map_length, zseq_length, !nth_zseq_map by lia. f_equal. lia.
Qed.

Lemma bres_rev : forall fuel x0 x1, (1 <= length x0 <= 3)%nat -> length x1 = length x0 -> x0 <> x1 ->
  span x0 x1 < 2 ^ 30 -> Z.odd (span x0 x1) = true -> (Z.to_nat (span x0 x1) < fuel)%nat ->
  exists rows, bresenham fuel x0 x1 = Ok rows /\ bresenham fuel x1 x0 = Ok (rev rows).
Proof.
  intros fuel x0 x1 HL H2 HN HB HO Hf. pose proof (span_pos x0 x1 H2 HN) as HS.
  eexists. split; [apply bresenham_ok; auto; lia|]. rewrite (bresenham_ok fuel x1 x0) by (rewrite ?(span_sym x0 x1); auto; lia).
  rewrite (span_sym x0 x1), rev_map_zseq. f_equal. apply map_ext_in. intros k Hk. apply zseq_In in Hk.
  rewrite Z2Nat.id by lia. symmetry. apply brow_rev; auto. lia.
Qed.

(** ** Reversing: [actual] *)

Lemma through_sym : forall x0 x1, through_origin x0 x1 -> through_origin x1 x0.
Proof.
  intros x0 x1 (w & H). exists (- (w + 1))%Q. induction H as [|a b x0 x1 Hab H IH]; constructor; auto.
  intros N. specialize (Hab ltac:(auto)). assert (E : (inject_Z b == inject_Z a + inject_Z (b - a))%Q).
  { rewrite <- inject_Z_plus. f_equiv. lia. }
  assert (E' : (inject_Z (a - b) == - inject_Z (b - a))%Q) by (rewrite <- inject_Z_opp; f_equiv; lia).
  rewrite E', E, Hab. ring.
Qed.

Lemma pierces_sym : forall x0 x1 t c, pierces x0 x1 t c -> pierces x1 x0 (1 - t) c.
Proof.
  induction x0 as [|a x0 IH]; intros [|b x1] t [|n c] H; cbn [pierces] in *; auto. destruct H as [H1 H2]. split; [|apply IH; auto].
  assert (E : (inject_Z b == inject_Z a + inject_Z (b - a))%Q).
  { rewrite <- inject_Z_plus. f_equiv. lia. }
  assert (E' : (inject_Z (a - b) == - inject_Z (b - a))%Q) by (rewrite <- inject_Z_opp; f_equiv; lia).
  setoid_replace (inject_Z b + inject_Z (a - b) * (1 - t) - inject_Z n)%Q with (inject_Z a + inject_Z (b - a) * t - inject_Z n)%Q; auto.
  rewrite E', E. ring.
Qed.

(** At each point the line is inside at most one pixel ... *)
Lemma pierces_one : forall x0 x1 t t' c c', (t == t')%Q -> pierces x0 x1 t c -> pierces x0 x1 t' c' -> c = c'.
Proof.
  induction x0 as [|a x0 IH]; intros [|b x1] t t' [|n c] [|n' c'] Ht H H'; cbn [pierces] in *; try tauto; auto.
  destruct H as [H1 H2]. destruct H' as [H1' H2']. f_equal; [|apply (IH x1 t t'); auto]. rewrite <- Ht in H1'.
  assert (B : forall x y, (inject_Z x < inject_Z y + 1)%Q -> x <= y).
  { intros x y X. change 1%Q with (inject_Z 1) in X. rewrite <- inject_Z_plus in X. rewrite <- Zlt_Qlt in X. lia. }
  assert (n <= n') by (apply B; lra). assert (n' <= n) by (apply B; lra). lia.
Qed.

(** ... and the points at which it is inside a given pixel are an interval. *)
Lemma pierces_between : forall x0 x1 t t' u c, pierces x0 x1 t c -> pierces x0 x1 t' c -> (t <= u <= t')%Q -> pierces x0 x1 u c.
Proof.
  induction x0 as [|a x0 IH]; intros [|b x1] t t' u [|n c] H H' Hu; cbn [pierces] in *; try tauto; auto.
  destruct H as [H1 H2]. destruct H' as [H1' H2']. split; [|apply (IH x1 t t'); auto].
  set (v := inject_Z (b - a)) in *. set (y := inject_Z a) in *. set (z := inject_Z n) in *.
  destruct (Qlt_le_dec v 0) as [L|L].
  - assert ((v * t' <= v * u)%Q) by nra. assert ((v * u <= v * t)%Q) by nra. lra.
  - assert ((v * t <= v * u)%Q) by nra. assert ((v * u <= v * t')%Q) by nra. lra.
Qed.

(** Pixels in the order in which the line goes through them. *)
Inductive ordered (x0 x1 : list Z) : list (list Z) -> Prop :=
| ord_nil : ordered x0 x1 []
| ord_cons : forall t c l, pierces x0 x1 t c ->
    (forall c', In c' l -> exists t', (t < t')%Q /\ pierces x0 x1 t' c') -> ~ In c l -> ordered x0 x1 l -> ordered x0 x1 (c :: l).

Lemma ordered_unique : forall x0 x1 l, ordered x0 x1 l -> forall l', ordered x0 x1 l' -> (forall c, In c l <-> In c l') -> l = l'.
Proof.
  intros x0 x1 l H. induction H as [|t c l Hc Hl Hn H IH]; intros l' H' HE.
  - destruct l' as [|c l']; [reflexivity|]. exfalso. apply (HE c). simpl; auto.
  - inversion H' as [|t' c' l2 Hc' Hl' Hn' H2 EQ]; subst.
    { exfalso. apply (HE c). simpl; auto. }
    assert (EC : c = c').
    { destruct (list_eq_dec Z.eq_dec c c') as [E|N]; [auto|exfalso].
      assert (I1 : In c l2). { assert (X : In c (c' :: l2)) by (apply HE; simpl; auto). destruct X as [X|X]; [congruence|auto]. }
      assert (I2 : In c' l). { assert (X : In c' (c :: l)) by (apply HE; simpl; auto). destruct X as [X|X]; [congruence|auto]. }
      destruct (Hl c' I2) as (u' & U1 & U2). destruct (Hl' c I1) as (u & V1 & V2).
      (* t < u' with c, c';  t' < u with c', c *)
      destruct (Qlt_le_dec t t') as [L|L].
      - apply N. apply (pierces_one x0 x1 t' t' c c'); [reflexivity| |auto]. apply (pierces_between x0 x1 t u t' c); auto. lra.
      - apply N. apply (pierces_one x0 x1 t t c c'); [reflexivity|auto|]. apply (pierces_between x0 x1 t' u' t c'); auto. lra. }
    subst c'. f_equal. apply IH; auto. intros d. specialize (HE d). split; intros Hd.
    + assert (X : In d (c :: l2)) by (apply HE; simpl; auto). destruct X as [<-|X]; [contradiction|auto].
    + assert (X : In d (c :: l)) by (apply HE; simpl; auto). destruct X as [<-|X]; [contradiction|auto].
Qed.

Lemma incr_lt : forall ts a t, incr a ts -> In t ts -> (a < t)%Q.
Proof.
  induction ts as [|u ts IH]; intros a t I Ht; [destruct Ht|]. destruct I as [I1 I2]. destruct Ht as [<-|Ht]; [auto|].
  specialize (IH u t I2 Ht). lra.
Qed.

Lemma F2_right : forall (A B : Type) (R : A -> B -> Prop) l l' b, Forall2 R l l' -> In b l' -> exists a, In a l /\ R a b.
Proof.
  intros A B R l l' b H. induction H as [|x y l l' Hxy H IH]; intros Hb; [destruct Hb|]. destruct Hb as [<-|Hb].
  - exists x. simpl; auto.
  - destruct (IH Hb) as (a & Ha & Hr). exists a. simpl; auto.
Qed.

Lemma ordered_times : forall x0 x1 ts rows a, incr a ts -> Forall2 (fun t r => pierces x0 x1 t r) ts rows -> NoDup rows ->
  ordered x0 x1 rows.
Proof.
  intros x0 x1 ts rows a HI H. revert a HI. induction H as [|t r ts rows Hr H IH]; intros a HI HD; [constructor|].
  destruct HI as [I1 I2]. inversion HD; subst. apply ord_cons with t; auto; [|eapply IH; eauto].
  intros c' Hc'. destruct (F2_right _ _ _ _ _ _ H Hc') as (t' & Ht' & Hp). exists t'. split; auto. eapply incr_lt; eauto.
Qed.

Lemma ordered_snoc : forall x0 x1 l c t, ordered x0 x1 l -> pierces x0 x1 t c -> ~ In c l ->
  (forall c', In c' l -> exists t', (t' < t)%Q /\ pierces x0 x1 t' c') -> ordered x0 x1 (l ++ [c]).
Proof.
  intros x0 x1 l c t H Hc. induction H as [|u d l Hd Hl Hn H IH]; intros HN HL.
  - apply ord_cons with t; auto; [intros ? []|constructor].
  - cbn [app]. destruct (HL d (or_introl eq_refl)) as (v & V1 & V2).
    assert (Hut : (u < t)%Q).
    { destruct (Qlt_le_dec u t) as [L|L]; [auto|exfalso]. apply HN. left.
      (* v < t <= u : c at t lies between two points of d *)
      apply (pierces_one x0 x1 t t d c); [reflexivity| |auto]. apply (pierces_between x0 x1 v u t d); auto. lra. }
    apply ord_cons with u; auto.
    + intros c' Hc'. apply in_app_iff in Hc'. destruct Hc' as [Hc'|[<-|[]]]; [auto|]. exists t. auto.
    + intros X. apply in_app_iff in X. destruct X as [X|[X|[]]]; [auto|]. apply HN. left. auto.
    + apply IH; [intros X; apply HN; simpl; auto|]. intros c' Hc'. apply HL. simpl; auto.
Qed.

Lemma ordered_rev : forall x0 x1 l, ordered x0 x1 l -> ordered x1 x0 (rev l).
Proof.
  intros x0 x1 l H. induction H as [|t c l Hc Hl Hn H IH]; [constructor|]. cbn [rev].
  apply ordered_snoc with (1 - t)%Q; auto.
  - apply pierces_sym. auto.
  - rewrite <- in_rev. auto.
  - intros c' Hc'. apply in_rev in Hc'. destruct (Hl c' Hc') as (t' & T1 & T2). exists (1 - t')%Q. split; [lra|]. apply pierces_sym. auto.
Qed.

(** A path never visits a pixel twice. *)
Lemma closer_manhattan : forall g x y, closer g x y -> manhattan y g <= manhattan x g /\ (manhattan y g = manhattan x g -> x = y).
Proof.
  induction g as [|g0 g IH]; intros [|a x] [|b y] H; cbn [closer] in H; try tauto; [cbn; split; [lia|auto]|].
  destruct H as [H1 H2]. destruct (IH x y H2) as [I1 I2]. cbn [manhattan]. destruct H1 as [->|[N ->]].
  - split; [lia|]. intros E. f_equal. apply I2. lia.
  - destruct (Z.lt_trichotomy g0 a) as [L|[L|L]]; [|congruence|].
    + rewrite Z.sgn_neg by lia. split; lia.
    + rewrite Z.sgn_pos by lia. split; lia.
Qed.

Lemma closer_nodup : forall g rows, consecutive (some_closer g) rows -> NoDup rows.
Proof.
  intros g rows H. assert (G : forall a l, consecutive (some_closer g) (a :: l) -> forall c, In c l -> manhattan c g < manhattan a g).
  { clear. intros a l. revert a. induction l as [|b l IH]; intros a H c Hc; [destruct Hc|]. cbn [consecutive] in H.
    destruct H as [[H1 H2] H3]. destruct (closer_manhattan _ _ _ H1) as [M1 M2].
    assert (manhattan b g < manhattan a g).
    { destruct (Z.eq_dec (manhattan b g) (manhattan a g)) as [E|E]; [exfalso; apply H2; auto|lia]. }
    destruct Hc as [<-|Hc]; [auto|]. specialize (IH b H3 c Hc). lia. }
  induction rows as [|a rows IH]; constructor.
  - intros X. pose proof (G a rows H a X). lia.
  - apply IH. destruct rows; [exact I|]. destruct H. auto.
Qed.

Lemma actual_ordered : forall fuel x0 x1, (1 <= length x0 <= 3)%nat -> length x1 = length x0 -> x0 <> x1 ->
  span x0 x1 <= 707 -> through_origin x0 x1 -> (Z.to_nat (manhattan x0 x1) <= fuel)%nat ->
  exists rows, line false fuel x0 x1 = Ok rows /\ ordered x0 x1 rows /\
    (forall c, In c rows <-> exists t, (0 <= t <= 1)%Q /\ pierces x0 x1 t c).
Proof.
  intros fuel x0 x1 HL HL' HN HS HW Hf.
  destruct (line_pixels_order false fuel x0 x1 HL HL' HN HS HW Hf) as (rows & E & _ & B & C).
  destruct (line_ok false fuel x0 x1 HL HL' HN ltac:(lia) HW Hf) as (rows' & E' & (_ & _ & P) & _).
  rewrite E in E'. injection E' as <-. destruct (C eq_refl) as (ts & T1 & T2 & T3).
  exists rows. split; auto. split.
  - apply ordered_times with ts 0%Q; auto. apply closer_nodup with x1. exact P.
  - intros c. split; [|intros (t & Ht & Hp); eapply B; eauto]. intros Hc.
    destruct (F2_right _ _ _ _ _ _ T3 Hc) as (t & Ht & Hp). exists t. split; auto.
    pose proof (incr_lt _ _ _ T1 Ht). rewrite Forall_forall in T2. specialize (T2 t Ht). lra.
Qed.

Lemma actual_rev : forall fuel x0 x1, (1 <= length x0 <= 3)%nat -> length x1 = length x0 -> x0 <> x1 ->
  span x0 x1 <= 707 -> through_origin x0 x1 -> (Z.to_nat (manhattan x0 x1) <= fuel)%nat ->
  exists rows, line false fuel x0 x1 = Ok rows /\ line false fuel x1 x0 = Ok (rev rows).
Proof.
  intros fuel x0 x1 HL HL' HN HS HW Hf.
  destruct (actual_ordered fuel x0 x1 HL HL' HN HS HW Hf) as (rows & E & O & C).
  destruct (actual_ordered fuel x1 x0) as (rows' & E' & O' & C'); rewrite ?HL'; auto.
  { rewrite (span_sym x0 x1). auto. }
  { apply through_sym. auto. }
  { rewrite (manhattan_sym x0 x1). auto. }
  exists rows. split; auto. rewrite E'. f_equal. apply (ordered_unique x1 x0); auto; [apply ordered_rev; auto|].
  intros c. rewrite <- in_rev, C, C'. split; intros (t & Ht & Hp); exists (1 - t)%Q; (split; [lra|apply pierces_sym; auto]).
Qed.

(** ** The statements *)

Lemma increasing_incr : forall ts a, incr a ts -> Forall (fun t => t <= 1)%Q ts -> increasing a ts.
Proof.
  induction ts as [|t ts IH]; intros a I F; [exact Logic.I|]. destruct I. inversion F; subst. split; [split; auto|]. apply IH; auto.
Qed.

Lemma actual_in_order : forall fuel x0 x1, (1 <= length x0 <= 3)%nat -> length x1 = length x0 -> x0 <> x1 ->
  span x0 x1 <= 707 -> through_origin x0 x1 -> (Z.to_nat (manhattan x0 x1) <= fuel)%nat ->
  exists rows, path fuel x0 x1 actual = Ok rows /\ NoDup rows /\
    (forall c, In c rows <-> exists t, (0 <= t <= 1)%Q /\ pierces x0 x1 t c) /\
    exists ts, increasing 0 ts /\ Forall2 (fun t r => pierces x0 x1 t r) ts rows.
Proof.
  intros fuel x0 x1 HL HL' HN HS HW Hf.
  destruct (line_pixels_order false fuel x0 x1 HL HL' HN HS HW Hf) as (rows & E & _ & B & C).
  destruct (line_ok false fuel x0 x1 HL HL' HN ltac:(lia) HW Hf) as (rows' & E' & (_ & _ & P) & _).
  rewrite E in E'. injection E' as <-. destruct (C eq_refl) as (ts & T1 & T2 & T3).
  destruct (actual_ordered fuel x0 x1 HL HL' HN HS HW Hf) as (rows' & E' & _ & D). rewrite E in E'. injection E' as <-.
  exists rows. split; [exact E|]. split; [apply closer_nodup with x1; exact P|]. split; [exact D|].
  exists ts. split; [apply increasing_incr; auto|exact T3].
Qed.

Lemma path_mirror : forall fuel s x0 x1 mode, (1 <= length x0 <= 3)%nat -> length x1 = length x0 -> x0 <> x1 ->
  span x0 x1 < 2 ^ 30 -> (Z.to_nat (span x0 x1) < fuel)%nat -> signs s -> length s = length x0 ->
  path fuel (mirror s x0) (mirror s x1) mode = each (mirror s) (path fuel x0 x1 mode).
Proof.
  intros fuel s x0 x1 mode HL HL' HN HS Hf Hs Hl. change (2 ^ 30) with 1073741824 in HS.
  destruct mode; cbn [path].
  - apply bres_mirror; auto.
  - apply line_mirror; auto. change (2 ^ 31) with 2147483648. lia.
  - apply line_mirror; auto. change (2 ^ 31) with 2147483648. lia.
Qed.

Lemma path_axes : forall fuel p x0 x1 mode, mode = Bresenham \/ mode = actual ->
  (1 <= length x0 <= 3)%nat -> length x1 = length x0 -> x0 <> x1 ->
  span x0 x1 < 2 ^ 30 -> (Z.to_nat (span x0 x1) < fuel)%nat -> Permutation p (seq 0 (length x0)) ->
  path fuel (pick p x0) (pick p x1) mode = each (pick p) (path fuel x0 x1 mode).
Proof.
  intros fuel p x0 x1 mode HM HL HL' HN HS Hf HP. change (2 ^ 30) with 1073741824 in HS.
  destruct HM as [-> | ->]; cbn [path].
  - apply bres_pick; auto.
  - apply actual_pick; auto. change (2 ^ 31) with 2147483648. lia.
Qed.

(** [Bresenham] rounds to the nearest pixel, ties go away from the start. *)
Lemma bres_nearest : forall fuel x0 x1, (1 <= length x0 <= 3)%nat -> length x1 = length x0 -> x0 <> x1 ->
  span x0 x1 < 2 ^ 30 -> (Z.to_nat (span x0 x1) < fuel)%nat ->
  exists rows, path fuel x0 x1 Bresenham = Ok rows /\
    forall k i, (k <= Z.to_nat (span x0 x1))%nat -> (i < length x0)%nat ->
      exists m, nth i (nth k rows []) 0 = nth i x0 0 + Z.sgn (nth i x1 0 - nth i x0 0) * m /\
        - span x0 x1 < 2 * span x0 x1 * m - 2 * Z.of_nat k * Z.abs (nth i x1 0 - nth i x0 0) <= span x0 x1.
Proof.
  intros fuel x0 x1 HL HL' HN HB Hf. pose proof (span_pos x0 x1 HL' HN) as HP.
  eexists. split; [apply bresenham_ok; auto; lia|]. intros k i Hk Hi.
  rewrite nth_zseq_map by lia. rewrite brow_nth by auto. unfold bpos. replace (0 + Z.of_nat k) with (Z.of_nat k) by lia.
  set (b := Z.abs (nth i x1 0 - nth i x0 0)). eexists. split; [reflexivity|].
  pose proof (Z.div_mod (2 * b * Z.of_nat k + span x0 x1) (2 * span x0 x1) ltac:(lia)) as D.
  pose proof (Z.mod_pos_bound (2 * b * Z.of_nat k + span x0 x1) (2 * span x0 x1) ltac:(lia)) as B.
  set (r := (2 * b * Z.of_nat k + span x0 x1) mod (2 * span x0 x1)) in *.
  set (m := (2 * b * Z.of_nat k + span x0 x1) / (2 * span x0 x1)) in *. clearbody r m b. nia.
Qed.
