(** * TileMore: clusters and dilation of an image repeated along its axes (proofs only) *)

From Coq Require Import ZArith QArith Qcanon List Bool Lia Permutation.
From Verif Require Import Base BaseLemmas Cluster SpecCluster ClusterGeom ClusterAbs ClusterRun ClusterMain ClusterTop Dilate SpecDilate DilateTop Path Ensemble SpecEnsemble EnsembleSums EnsembleWindow EnsembleTop
  SpecSymmetry DerivedCluster DerivedDilate DerivedEnsemble SpecMoved SpecTile TileTop.
Import ListNotations.
Open Scope Z_scope.

Lemma pos1 : forall shape, Forall (fun n => 1 <= n) shape -> Forall (fun n => 0 < n) shape.
Proof. intros. eapply Forall_impl; [|eassumption]. cbn. intros. lia. Qed.

Lemma copy_one : forall times shape p q p', Forall (fun n => 1 <= n) shape -> copy_of times shape p p' -> copy_of times shape q p' -> p = q.
Proof. intros times shape p q p' HS (Hp & _ & E) (Hq & _ & E'). apply (coords_inj shape); auto; [apply pos1; auto|congruence]. Qed.

Lemma mod_tiled : forall t n x, 1 <= t -> 1 <= n -> (x mod (t * n)) mod n = x mod n.
Proof. intros. rewrite (Z.mul_comm t n), Z.rem_mul_r by lia. rewrite (Z.mul_comm n), Z.mod_add, Z.mod_mod by lia. reflexivity. Qed.

(** ** Face neighbours *)

Lemma face_wrap : forall ts s a b, Forall (fun n => 1 <= n) ts -> Forall (fun n => 1 <= n) s -> length ts = length s -> face true (tiled ts s) a b ->
  face true s (remain s a) (remain s b).
Proof.
  unfold remain, tiled. induction ts as [|t ts IH]; intros [|n s] a b H1 H2 HL M; try discriminate; cbn [combine map face] in M |- *.
  - destruct a, b; tauto.
  - destruct a as [|x a], b as [|y b]; try tauto. inversion H1; subst. inversion H2; subst. cbn [fst snd combine map face] in *.
    destruct M as [[-> M]|[[-> | ->] ->]].
    + left. split; auto.
    + right. split; auto. left. rewrite mod_tiled by auto. rewrite Zplus_mod_idemp_l. reflexivity.
    + right. split; auto. right. rewrite mod_tiled by auto. rewrite Zminus_mod_idemp_l. reflexivity.
Qed.

Lemma face_lift : forall ts s a y, Forall (fun n => 1 <= n) ts -> Forall (fun n => 1 <= n) s -> length ts = length s -> inside (tiled ts s) a ->
  face true s (remain s a) y -> exists b, inside (tiled ts s) b /\ face true (tiled ts s) a b /\ remain s b = y.
Proof.
  unfold remain, tiled. induction ts as [|t ts IH]; intros [|n s] a y H1 H2 HL HI M; try discriminate; cbn [combine map face inside] in *.
  - destruct a; tauto.
  - destruct a as [|x a]; [tauto|]. cbn [combine map fst snd] in *. destruct y as [|v y]; [tauto|]. inversion H1; subst. inversion H2; subst. destruct HI as [HX HI].
    destruct M as [[<- M]|[C <-]].
    + destruct (IH s a y) as (b & B1 & B2 & B3); auto. exists (x :: b). split; [split; auto|]. split; [left; auto|]. cbn. f_equal. auto.
    + destruct C as [-> | ->]; [exists ((x + 1) mod (t * n) :: a)|exists ((x - 1) mod (t * n) :: a)]; (split; [split; [apply Z.mod_pos_bound; nia|exact HI]|]); (split; [right; auto|]); cbn; rewrite mod_tiled by auto; f_equal.
      * rewrite Zplus_mod_idemp_l. reflexivity.
      * rewrite Zminus_mod_idemp_l. reflexivity.
Qed.

Lemma face_back : forall per s a b, inside s a -> inside s b -> face per s a b -> face per s b a.
Proof.
  induction s as [|n s IH]; intros [|x a] [|y b] IA IB F; cbn [face inside] in *; try tauto. destruct IA as [HX IA], IB as [HY IB].
  destruct F as [[-> F]|[C <-]]; [left; split; auto|]. right. split; auto. destruct per; [|lia].
  destruct C as [-> | ->]; [right|left].
  - rewrite Zminus_mod_idemp_l. replace (x + 1 - 1) with x by lia. symmetry. apply Z.mod_small. auto.
  - rewrite Zplus_mod_idemp_l. replace (x - 1 + 1) with x by lia. symmetry. apply Z.mod_small. auto.
Qed.

Lemma face_neighbour_back : forall per s p q, Forall (fun n => 0 < n) s -> face_neighbour per s p q -> face_neighbour per s q p.
Proof. intros per s p q HP (A & B & F). split; auto. split; auto. apply face_back; auto using coords_inside. Qed.

(** ** Displacements, backwards *)

Lemma moved_lift : forall ts s x d b, Forall (fun n => 1 <= n) ts -> Forall (fun n => 1 <= n) s -> length ts = length s -> inside s x -> inside (tiled ts s) b ->
  moved true s x d (remain s b) -> exists a, inside (tiled ts s) a /\ moved true (tiled ts s) a d b /\ remain s a = x.
Proof.
  unfold remain, tiled. induction ts as [|t ts IH]; intros [|n s] x d b H1 H2 HL HX HI M; try discriminate; cbn [combine map moved inside] in *.
  - destruct b; [|tauto]. destruct x, d; try tauto. exists []. auto.
  - destruct b as [|y b]; [tauto|]. destruct x as [|v x]; [tauto|]. destruct d as [|u d]; [tauto|]. cbn [combine map fst snd] in *. inversion H1; subst. inversion H2; subst. destruct HI as [HY HI]. destruct HX as [HV HX]. destruct M as [M0 M].
    destruct (IH s x d b) as (a & A1 & A2 & A3); auto. exists ((y - u) mod (t * n) :: a). split; [split; [apply Z.mod_pos_bound; nia|auto]|]. split.
    + split; auto. rewrite Zplus_mod_idemp_l. replace (y - u + u) with y by lia. symmetry. apply Z.mod_small. auto.
    + cbn. rewrite mod_tiled by auto. f_equal; auto. rewrite <- (Z.mod_small v n) by auto. replace ((y - u) mod n) with ((y mod n - u) mod n) by (rewrite Zminus_mod_idemp_l; auto).
      rewrite M0, Zminus_mod_idemp_l. f_equal. lia.
Qed.

(** ** Linked pixels *)

Lemma linked_lift : forall (adj adj' : Z -> Z -> Prop) (A A' : Z -> Prop) (T : Z -> Z -> Prop),
  (forall x x' y, T x x' -> adj x y -> exists y', T y y' /\ adj' x' y') -> (forall x x', T x x' -> A x -> A' x') ->
  forall p q, linked adj A p q -> forall p', T p p' -> exists q', T q q' /\ linked adj' A' p' q'.
Proof.
  intros adj adj' A A' T Hadj HA p q HL. induction HL; intros p' Tp.
  - exists p'. split; auto. constructor. eapply HA; eauto.
  - destruct (Hadj _ _ _ Tp H0) as (x' & Tx & Ax). destruct (IHHL x' Tx) as (q' & Tq & Lq). exists q'. split; auto. eapply linked_step; eauto.
Qed.

Lemma reaches_lift : forall (adj adj' : Z -> Z -> Prop) (S S' : Z -> Prop) (T : Z -> Z -> Prop),
  (forall x y y', T y y' -> adj x y -> exists x', T x x' /\ adj' x' y') -> (forall x x', T x x' -> S x -> S' x') ->
  forall k q, SpecDilate.reaches adj S k q -> forall q', T q q' -> SpecDilate.reaches adj' S' k q'.
Proof.
  intros adj adj' S S' T Hadj HS k q R. induction R; intros q' Tq.
  - constructor; auto. eapply HS; eauto.
  - destruct (Hadj _ _ _ Tq H) as (x' & Tx & Ax). eapply reaches_step; eauto.
Qed.

Lemma inside_tiled : forall ts s a, Forall (fun n => 1 <= n) ts -> length ts = length s -> inside s a -> inside (tiled ts s) a /\ remain s a = a.
Proof.
  unfold remain, tiled. induction ts as [|t ts IH]; intros [|n s] [|x a] H1 HL HI; try discriminate; cbn [combine map inside fst snd] in *; try tauto.
  - inversion H1; subst. destruct HI as [HX HI]. destruct (IH s a) as [I1 I2]; auto. split; [split; [nia|auto]|]. f_equal; auto. apply Z.mod_small. auto.
Qed.

Lemma copy_total : forall times shape p, length times = length shape -> Forall (fun n => 1 <= n) times -> Forall (fun n => 1 <= n) shape -> pixel shape p -> exists p', copy_of times shape p p'.
Proof.
  intros times shape p HL HT HS Hp. destruct (inside_tiled times shape (coords shape p)) as [I1 I2]; auto; [apply coords_inside; auto; apply pos1; auto|].
  destruct (pixel_of_coords (tiled times shape) (coords shape p) I1) as (p' & Hp' & E). exists p'. split; auto. split; auto. rewrite E. symmetry. exact I2.
Qed.

Lemma Forall2_len : forall {A B} {R : A -> B -> Prop} {l m}, Forall2 R l m -> length l = length m.
Proof. intros A B R l m H. induction H; cbn; auto. Qed.

Section Copied.
Variables (times shape : list Z).
Hypothesis HL : length times = length shape.
Hypothesis HT : Forall (fun n => 1 <= n) times.
Hypothesis HS : Forall (fun n => 1 <= n) shape.

Lemma neighbour_wrap : forall x y x' y', copy_of times shape x x' -> copy_of times shape y y' -> face_neighbour true (tiled times shape) x' y' -> face_neighbour true shape x y.
Proof.
  intros x y x' y' (Hx & _ & Ex) (Hy & _ & Ey) (_ & _ & F). split; auto. split; auto. rewrite Ex, Ey. apply (face_wrap times); auto.
Qed.

Lemma neighbour_lift : forall x x' y, copy_of times shape x x' -> face_neighbour true shape x y -> exists y', copy_of times shape y y' /\ face_neighbour true (tiled times shape) x' y'.
Proof.
  intros x x' y (Hx & Hx' & Ex) (_ & Hy & F). rewrite Ex in F. destruct (face_lift times shape (coords (tiled times shape) x') (coords shape y)) as (b & B1 & B2 & B3); auto.
  { apply coords_inside; auto. apply big_pos; auto. }
  destruct (pixel_of_coords (tiled times shape) b B1) as (y' & Hy' & <-). exists y'. split; [split; auto; split; auto|]. split; auto.
Qed.

Lemma neighbour_back : forall x y y', copy_of times shape y y' -> face_neighbour true shape x y -> exists x', copy_of times shape x x' /\ face_neighbour true (tiled times shape) x' y'.
Proof.
  intros x y y' TY F. assert (F' : face_neighbour true shape y x) by (apply face_neighbour_back; auto; apply pos1; auto).
  destruct (neighbour_lift _ _ _ TY F') as (x' & TX & FX). exists x'. split; auto. apply face_neighbour_back; auto; apply big_pos; auto.
Qed.

Lemma moved_back : forall x y y' d, pixel shape x -> copy_of times shape y y' -> moved true shape (coords shape x) d (coords shape y) ->
  exists x', copy_of times shape x x' /\ moved true (tiled times shape) (coords (tiled times shape) x') d (coords (tiled times shape) y').
Proof.
  intros x y y' d Hx (Hy & Hy' & Ey) M. rewrite Ey in M.
  destruct (moved_lift times shape (coords shape x) d (coords (tiled times shape) y')) as (a & A1 & A2 & A3); auto.
  { apply coords_inside; auto. apply pos1; auto. } { apply coords_inside; auto. apply big_pos; auto. }
  destruct (pixel_of_coords (tiled times shape) a A1) as (x' & Hx' & <-). exists x'. split; [split; auto; split; auto|]. auto.
Qed.

End Copied.

(** ** Dilation *)

Lemma tile_reaches : forall times shape f f' (adj adj' : Z -> Z -> Prop) n, length times = length shape -> Forall (fun n => 1 <= n) times -> Forall (fun n => 1 <= n) shape ->
  (forall x x', copy_of times shape x x' -> zn f' x' = zn f x) ->
  (forall x y, adj' x y -> pixel (tiled times shape) x /\ pixel (tiled times shape) y) ->
  (forall x y x' y', copy_of times shape x x' -> copy_of times shape y y' -> adj' x' y' -> adj x y) ->
  (forall x y y', copy_of times shape y y' -> adj x y -> exists x', copy_of times shape x x' /\ adj' x' y') ->
  forall p p', copy_of times shape p p' ->
  (SpecDilate.reaches adj (fun x => pixel shape x /\ zn f x <> 0) n p <-> SpecDilate.reaches adj' (fun x => pixel (tiled times shape) x /\ zn f' x <> 0) n p').
Proof.
  intros times shape f f' adj adj' n HL HT HS HC HP HW HB p p' T. split; intros R.
  - eapply (reaches_lift adj adj' _ _ (copy_of times shape)); eauto. cbn beta. intros x x' Tx (_ & Nx). split; [apply Tx|]. rewrite (HC _ _ Tx). auto.
  - eapply (reaches_map adj' adj (fun x => pixel (tiled times shape) x /\ zn f' x <> 0) (fun x => pixel shape x /\ zn f x <> 0) (pixel (tiled times shape)) (fun x y => copy_of times shape y x)); eauto.
    + intros x Hx. apply has_copy; auto.
    + intros x [Hx _]; auto.
    + intros x x' Tx (_ & Nx). split; [apply Tx|]. rewrite <- (HC _ _ Tx). auto.
    + intros x y y' T1 T2. apply (copy_one times shape y y' x); auto.
Qed.

Lemma tile_dilate : forall asrt times shape f f' ks kv n, dilatable_n true shape f ks kv -> length times = length shape -> Forall (fun n => 1 <= n) times ->
  lenZ f' = zprod (tiled times shape) -> carried (copy_of times shape) f f' -> 0 <= n ->
  exists ret ret', dilate_n asrt shape f ks kv n true = Ok ret /\ dilate_n asrt (tiled times shape) f' ks kv n true = Ok ret' /\
    forall p p', copy_of times shape p p' -> (zn ret' p' <> 0 <-> zn ret p <> 0).
Proof.
  intros asrt times shape f f' ks kv n HD HL HT HF HC0 Hn. pose proof (carried_zn _ _ _ HC0) as HC. pose proof HD as (D1 & (D2 & D2') & D3 & D4 & D5 & D6 & D7).
  assert (HD' : dilatable_n true (tiled times shape) f' ks kv).
  { split; [rewrite tiled_length; auto|]. split; [split; [apply tiled_pos; auto|auto]|]. split; [rewrite tiled_length; auto|]. split; auto. split; auto.
    split; [intros _; apply tiled_fits; auto|]. intros l IN. apply In_nth_error in IN. destruct IN as (k & Hk).
    assert (HK : (k < length f')%nat) by (apply nth_error_Some; congruence).
    destruct (has_copy times shape HL D2 (Z.of_nat k)) as (p & T); [unfold pixel, lenZ in *; lia|].
    pose proof (HC0 _ _ T) as E. rewrite Nat2Z.id, Hk in E. apply D7. symmetry in E. eapply nth_error_In; eauto. }
  destruct (dilate_n_ok asrt _ _ _ _ _ _ HD Hn) as (ret & E & _ & R). destruct (dilate_n_ok asrt _ _ _ _ _ _ HD' Hn) as (ret' & E' & _ & R').
  exists ret, ret'. split; auto. split; auto. intros p p' T. rewrite (R p), (R' p') by apply T. symmetry. apply (tile_reaches times shape); auto.
  - intros x y (A & B & _); auto.
  - intros x y x' y' (Hx & _ & Ex) (Hy & _ & Ey) (_ & _ & d & K & M). split; auto. split; auto. exists d. split; auto. rewrite Ex, Ey. apply (moved_wrap times shape HL times); auto.
  - intros x y y' Ty (Hx & Hy & d & K & M). destruct (moved_back times shape HL HT D2 x y y' d Hx Ty M) as (x' & Tx & M'). exists x'. split; auto. split; [apply Tx|]. split; [apply Ty|]. exists d. auto.
Qed.

Lemma tile_default : forall asrt times shape f f' n, (1 <= length shape <= 3)%nat -> image shape f -> (forall l, In l f -> 0 <= l < 2 ^ 62) -> length times = length shape -> Forall (fun n => 1 <= n) times ->
  lenZ f' = zprod (tiled times shape) -> carried (copy_of times shape) f f' -> 0 <= n ->
  exists ret ret', dilate_default_n asrt shape f n true = Ok ret /\ dilate_default_n asrt (tiled times shape) f' n true = Ok ret' /\
    forall p p', copy_of times shape p p' -> (zn ret' p' <> 0 <-> zn ret p <> 0).
Proof.
  intros asrt times shape f f' n H13 HI D7 HL HT HF HC0 Hn. pose proof (carried_zn _ _ _ HC0) as HC. pose proof HI as (D2 & _).
  pose proof (tiled_length _ _ HL) as TL.
  assert (HI' : image (tiled times shape) f') by (split; [apply tiled_pos; auto|auto]).
  assert (D7' : forall l, In l f' -> 0 <= l < 2 ^ 62).
  { intros l IN. apply In_nth_error in IN. destruct IN as (k & Hk).
    assert (HK : (k < length f')%nat) by (apply nth_error_Some; congruence).
    destruct (has_copy times shape HL D2 (Z.of_nat k)) as (p & T); [unfold pixel, lenZ in *; lia|].
    pose proof (HC0 _ _ T) as E. rewrite Nat2Z.id, Hk in E. apply D7. symmetry in E. eapply nth_error_In; eauto. }
  destruct (Nat.eq_dec (length shape) 3) as [E3|N3].
  - destruct (dilate_default3 asrt shape f n true E3 HI D7 Hn) as (ret & E & _ & R). destruct (dilate_default3 asrt (tiled times shape) f' n true ltac:(lia) HI' D7' Hn) as (ret' & E' & _ & R').
    exists ret, ret'. split; auto. split; auto. intros p p' T. rewrite (R p), (R' p') by apply T. symmetry. apply (tile_reaches times shape); auto.
    + intros x y (A & B & _); auto.
    + intros x y x' y' (Hx & _ & Ex) (Hy & _ & Ey) (_ & _ & d0 & d1 & d2 & A0 & A1 & A2 & K & M). split; auto. split; auto. exists d0, d1, d2. do 4 (split; [assumption|]). rewrite Ex, Ey. apply (moved_wrap times shape HL times); auto.
    + intros x y y' Ty (Hx & Hy & d0 & d1 & d2 & A0 & A1 & A2 & K & M). destruct (moved_back times shape HL HT D2 x y y' _ Hx Ty M) as (x' & Tx & M'). exists x'. split; auto. split; [apply Tx|]. split; [apply Ty|]. exists d0, d1, d2. auto.
  - destruct (dilate_default_n_ok asrt shape f n true ltac:(lia) HI D7 Hn) as (ret & E & _ & R). destruct (dilate_default_n_ok asrt (tiled times shape) f' n true ltac:(lia) HI' D7' Hn) as (ret' & E' & _ & R').
    exists ret, ret'. split; auto. split; auto. intros p p' T. rewrite (R p), (R' p') by apply T. symmetry. apply (tile_reaches times shape); auto.
    + intros x y (A & B & _); auto.
    + intros x y x' y' Tx Ty F. apply (neighbour_wrap times shape HL HT D2 x y x' y'); auto.
    + intros x y y' Ty F. apply (neighbour_back times shape HL HT D2 x y y'); auto.
Qed.

(** ** Clusters *)

Lemma length_filter_sum : forall (l : list Z) (g : Z -> bool), zq (lenZ (filter g l)) = sum_over l (fun p => if g p then 1%Qc else 0%Qc).
Proof.
  induction l as [|x l IH]; intros g; [reflexivity|]. cbn [filter sum_over]. change (sum_over (x :: l) (fun p => if g p then 1%Qc else 0%Qc)) with ((if g x then 1 else 0) + sum_over l (fun p => if g p then 1 else 0))%Qc.
  rewrite <- IH. destruct (g x).
  - replace (lenZ (x :: filter g l)) with (1 + lenZ (filter g l)) by (unfold lenZ; cbn [length]; lia). rewrite zq_plus, zq_1. reflexivity.
  - ring.
Qed.

Lemma NoDup_map_on : forall {A B} (f : A -> B) l, (forall x y, In x l -> In y l -> f x = f y -> x = y) -> NoDup l -> NoDup (map f l).
Proof.
  induction l as [|x l IH]; intros HI HN; cbn; constructor; inversion HN; subst.
  - intros IN. apply in_map_iff in IN. destruct IN as (y & E & IN). apply H1. rewrite (HI x y); auto; [left; auto|right; auto].
  - apply IH; auto. intros y z Hy Hz. apply HI; right; auto.
Qed.

(** The first pixel of its cluster. *)
Definition leads (lab : list Z) (p : Z) : bool := negb (zn lab p =? 0) && forallb (fun q => negb (zn lab q =? zn lab p)) (zrange 0 p).

Lemma leader : forall lab m p, 0 <= p < m -> zn lab p <> 0 -> exists r, 0 <= r < m /\ leads lab r = true /\ zn lab r = zn lab p.
Proof.
  intros lab m p. revert m. induction p as [p IH] using (well_founded_induction (Z.lt_wf 0)). intros m Hp NZ.
  destruct (forallb (fun q => negb (zn lab q =? zn lab p)) (zrange 0 p)) eqn:E.
  - exists p. split; auto. split; auto. unfold leads. rewrite E. rewrite (proj2 (Z.eqb_neq _ _) NZ). reflexivity.
  - assert (X : exists q, In q (zrange 0 p) /\ zn lab q = zn lab p).
    { clear -E. induction (zrange 0 p) as [|x l IHl]; [discriminate|]. cbn in E. destruct (zn lab x =? zn lab p) eqn:Ex; [exists x; split; [left; auto|apply Z.eqb_eq; auto]|].
      cbn in E. destruct (IHl E) as (q & Hq & Eq). exists q. split; [right; auto|auto]. }
    destruct X as (q & Hq & Eq). apply zrange_In in Hq. destruct (IH q) with (m := m) as (r & Hr & Lr & Er); [lia|lia|congruence|]. exists r. split; auto. split; auto. congruence.
Qed.

Lemma leads_one : forall lab p q, 0 <= p -> 0 <= q -> leads lab p = true -> leads lab q = true -> zn lab p = zn lab q -> p = q.
Proof.
  intros lab p q Hp Hq Lp Lq E. unfold leads in Lp, Lq. apply andb_true_iff in Lp. apply andb_true_iff in Lq. destruct Lp as [_ Lp], Lq as [_ Lq]. rewrite forallb_forall in Lp, Lq.
  destruct (Z.lt_trichotomy p q) as [C|[C|C]]; auto.
  - specialize (Lq p). rewrite zrange_In in Lq. rewrite E, Z.eqb_refl in Lq. cbn in Lq. discriminate Lq; lia.
  - specialize (Lp q). rewrite zrange_In in Lp. rewrite E, Z.eqb_refl in Lp. cbn in Lp. discriminate Lp; lia.
Qed.

Lemma tile_clusters : forall asrt times shape img img', good_shape shape -> Forall (fun n => 1 <= n) shape -> (length shape <= 3)%nat -> length times = length shape -> Forall (fun n => 1 <= n) times ->
  zprod (tiled times shape) < SpecCluster.big -> lenZ img = zprod shape -> lenZ img' = zprod (tiled times shape) -> carried (copy_of times shape) img img' ->
  exists lab lab' n n', clusters asrt shape img true = Ok lab /\ clusters asrt (tiled times shape) img' true = Ok lab' /\
    (forall p q p' q', copy_of times shape p p' -> copy_of times shape q q' -> zn lab' p' = zn lab' q' -> zn lab p = zn lab q) /\
    (forall p q p', copy_of times shape p p' -> pixel shape q -> zn lab p = zn lab q -> exists q', copy_of times shape q q' /\ zn lab' p' = zn lab' q') /\
    (forall v, 1 <= v <= n <-> v <> 0 /\ exists p, pixel shape p /\ zn lab p = v) /\
    (forall v, 1 <= v <= n' <-> v <> 0 /\ exists p, pixel (tiled times shape) p /\ zn lab' p = v) /\
    0 <= n <= n' /\ n' <= zprod times * n.
Proof.
  intros asrt times shape img img' HG HS H3 HL HT HB L L' HC0. pose proof (carried_zn _ _ _ HC0) as HC.
  assert (HG' : good_shape (tiled times shape)).
  { split; [|split; [|exact HB]]. - intros E. apply (f_equal (@length Z)) in E. rewrite tiled_length in E by auto. destruct HG as (G & _). destruct shape; [tauto|discriminate].
    - eapply Forall_impl; [|apply tiled_pos; [exact HT|exact HS]]. cbn. intros. lia. }
  destruct (clusters_ok asrt shape img true HG) as (lab & E & Ll & Z1 & C1 & (n & N1) & _); auto.
  destruct (clusters_ok asrt (tiled times shape) img' true HG') as (lab' & E' & Ll' & Z2 & C2 & (n' & N1') & _); auto; try (rewrite tiled_length; auto).
  assert (A : forall p q p' q', copy_of times shape p p' -> copy_of times shape q q' -> zn lab' p' = zn lab' q' -> zn lab p = zn lab q).
  { intros p q p' q' Tp Tq EQ. pose proof Tp as (Hp & Hp' & _). pose proof Tq as (Hq & Hq' & _).
    pose proof (Z1 p Hp) as Zp. pose proof (Z1 q Hq) as Zq. pose proof (Z2 p' Hp') as Zp'. pose proof (Z2 q' Hq') as Zq'. rewrite (HC _ _ Tp) in Zp'. rewrite (HC _ _ Tq) in Zq'.
    destruct (Z.eq_dec (zn img p) 0) as [X|X].
    { apply Zp in X as Y. apply Zp' in X as Y'. rewrite Y. symmetry. apply Zq, Zq'. congruence. }
    destruct (Z.eq_dec (zn img q) 0) as [X'|X'].
    { apply Zq in X' as Y. apply Zq' in X' as Y'. rewrite Y. apply Zp, Zp'. congruence. }
    apply C1; auto. rewrite C2 in EQ by (auto; rewrite ?(HC _ _ Tp), ?(HC _ _ Tq); auto).
    eapply (linked_map (face_neighbour true (tiled times shape)) (face_neighbour true shape) (fun x => pixel (tiled times shape) x /\ zn img' x <> 0) (fun x => pixel shape x /\ zn img x <> 0) (fun x y => copy_of times shape y x)); eauto.
    - intros x [Hx _]. apply has_copy; auto.
    - intros x x' y y' Tx Ty F. apply (neighbour_wrap times shape HL HT HS x' y' x y); auto.
    - intros x x' Tx [_ Nx]. split; [apply Tx|]. rewrite <- (HC _ _ Tx). auto.
    - intros x y y' T1 T2. apply (copy_one times shape y y' x); auto. }
  assert (B : forall p q p', copy_of times shape p p' -> pixel shape q -> zn lab p = zn lab q -> exists q', copy_of times shape q q' /\ zn lab' p' = zn lab' q').
  { intros p q p' Tp Hq EQ. pose proof Tp as (Hp & Hp' & _).
    pose proof (Z1 p Hp) as Zp. pose proof (Z1 q Hq) as Zq. pose proof (Z2 p' Hp') as Zp'. rewrite (HC _ _ Tp) in Zp'.
    destruct (Z.eq_dec (zn img p) 0) as [X|X].
    { destruct (copy_total times shape q) as (q' & Tq); auto. exists q'. split; auto. pose proof (Z2 q' (proj1 (proj2 Tq))) as Zq'. rewrite (HC _ _ Tq) in Zq'.
      apply Zp in X as Y. apply Zp' in X as Y'. rewrite Y'. symmetry. apply Zq', Zq. congruence. }
    assert (X' : zn img q <> 0) by (intros X'; apply X, Zp; rewrite EQ; apply Zq; auto).
    apply C1 in EQ; auto.
    destruct (linked_lift (face_neighbour true shape) (face_neighbour true (tiled times shape)) (fun x => pixel shape x /\ zn img x <> 0) (fun x => pixel (tiled times shape) x /\ zn img' x <> 0) (copy_of times shape)) with (p := p) (q := q) (p' := p') as (q' & Tq & LQ); auto.
    - intros x x' y Tx F. apply (neighbour_lift times shape HL HT HS x x' y); auto.
    - intros x x' Tx [_ Nx]. split; [apply Tx|]. rewrite (HC _ _ Tx). auto.
    - exists q'. split; auto. apply C2; auto; [apply Tq|rewrite (HC _ _ Tp); auto|rewrite (HC _ _ Tq); auto]. }
  exists lab, lab', (Z.max 0 n), (Z.max 0 n'). split; auto. split; auto. split; auto. split; auto.
  split; [intros v; rewrite <- N1; lia|]. split; [intros v; rewrite <- N1'; lia|].
  set (big := tiled times shape) in *. set (reps := filter (leads lab) (pixels shape)).
  assert (RN : lenZ reps = Z.max 0 n).
  { assert (RD : NoDup (map (zn lab) reps)).
    { apply NoDup_map_on; [|apply NoDup_filter, zrange_NoDup]. intros x y Hx Hy EQ. apply filter_In in Hx. apply filter_In in Hy. destruct Hx as [Hx Lx], Hy as [Hy Ly]. apply zrange_In in Hx. apply zrange_In in Hy.
      eapply leads_one; eauto; lia. }
    assert (R1 : forall v, In v (map (zn lab) reps) <-> 1 <= v <= n).
    { intros v. rewrite N1, in_map_iff. split.
      - intros (p & <- & IN). apply filter_In in IN. destruct IN as [IN Lp]. apply zrange_In in IN. split; [|exists p; split; auto]. unfold leads in Lp. apply andb_true_iff in Lp. destruct Lp as [Lp _]. apply negb_true_iff, Z.eqb_neq in Lp. auto.
      - intros (NV & p & Hp & <-). destruct (leader lab (zprod shape) p Hp NV) as (r & Hr & Lr & Er). exists r. split; auto. apply filter_In. split; auto. apply zrange_In. auto. }
    assert (P : Permutation (map (zn lab) reps) (zrange 1 (n + 1))).
    { apply NoDup_Permutation; auto; [apply zrange_NoDup|]. intros v. rewrite R1, zrange_In. lia. }
    apply Permutation_length in P. rewrite map_length in P. unfold lenZ. rewrite P. rewrite <- (map_length (fun x : Z => x)). unfold zrange. rewrite map_length, zseq_length. lia. }
  split.
  - split; [lia|]. destruct (Z.le_gt_cases n 0); [lia|].
    (* the labels of copies of the leaders *)
    assert (CH : exists g : list Z, Forall2 (fun r r' => copy_of times shape r r') reps g).
    { assert (HR : forall r, In r reps -> pixel shape r) by (intros r IN; apply filter_In in IN; destruct IN as [IN _]; apply zrange_In in IN; auto).
      clear -HR HL HT HS. induction reps as [|r rs IH]; [exists []; constructor|]. destruct IH as (g & Hg); [intros; apply HR; right; auto|].
      destruct (copy_total times shape r) as (r' & Tr); auto; [apply HR; left; auto|]. exists (r' :: g). constructor; auto. }
    destruct CH as (g & Hg).
    assert (GD : NoDup (map (zn lab') g)).
    { assert (RD : NoDup reps) by (apply NoDup_filter, zrange_NoDup). assert (RL : forall r, In r reps -> 0 <= r /\ leads lab r = true) by (intros r IN; apply filter_In in IN; destruct IN as [IN Lr]; apply zrange_In in IN; split; [lia|auto]).
      clear RN. clearbody reps. induction Hg as [|r r' rs g Tr Hg IH]; cbn; constructor; inversion RD; subst.
      - intros IN. apply in_map_iff in IN. destruct IN as (x' & EQ & IN). assert (X : exists x, In x rs /\ copy_of times shape x x').
        { clear -Hg IN. induction Hg as [|a b rs g Ta Hg IHg]; [destruct IN|]. destruct IN as [->|IN]; [exists a; split; [left; auto|auto]|]. destruct (IHg IN) as (x & Hx & Tx). exists x. split; [right; auto|auto]. }
        destruct X as (x & Hx & Tx). pose proof (A _ _ _ _ Tx Tr EQ) as EE. destruct (RL x) as [X1 X2]; [right; auto|]. destruct (RL r) as [Y1 Y2]; [left; auto|].
        rewrite (leads_one lab x r) in Hx; auto.
      - apply IH; auto. intros; apply RL; right; auto. }
    assert (GI : incl (map (zn lab') g) (zrange 1 (n' + 1))).
    { intros v IN. apply in_map_iff in IN. destruct IN as (x' & <- & IN). assert (X : exists x, In x reps /\ copy_of times shape x x').
      { clear -Hg IN. induction Hg as [|a b rs g Ta Hg IHg]; [destruct IN|]. destruct IN as [->|IN]; [exists a; split; [left; auto|auto]|]. destruct (IHg IN) as (x & Hx & Tx). exists x. split; [right; auto|auto]. }
      destruct X as (x & Hx & Tx). apply zrange_In. assert (1 <= zn lab' x' <= n'); [|lia]. apply N1'. split; [|exists x'; split; auto; apply Tx].
      intros Z0. apply filter_In in Hx. destruct Hx as [Hx Lx]. unfold leads in Lx. apply andb_true_iff in Lx. destruct Lx as [Lx _]. apply negb_true_iff, Z.eqb_neq in Lx. apply Lx.
      apply Z1; [apply Tx|]. rewrite <- (HC _ _ Tx). apply Z2; auto. apply Tx. }
    pose proof (NoDup_incl_length GD GI) as LE. rewrite map_length in LE. rewrite <- (Forall2_len Hg) in LE. unfold zrange in LE. rewrite zseq_length in LE. unfold lenZ in RN. lia.
  - set (inv := fun p' => ravel shape (remain shape (coords big p'))).
    assert (HI : forall p p', copy_of times shape p p' -> inv p' = p).
    { intros p p' (Hp & _ & EE). unfold inv, remain. fold big in EE. rewrite <- EE. apply ravel_coords; auto. eapply Forall_impl; [|exact HS]. cbn. intros. lia. }
    set (cop := filter (fun p' => leads lab (inv p')) (pixels big)).
    assert (CL : lenZ cop = zprod times * lenZ reps).
    { apply zq_inj. unfold cop, reps. rewrite zq_mult, !length_filter_sum. apply (sum_copies times shape); auto. intros p p' T. rewrite (HI _ _ T). reflexivity. }
    rewrite RN in CL. rewrite <- CL.
    assert (GI : incl (zrange 1 (n' + 1)) (map (zn lab') cop)).
    { intros v IN. apply zrange_In in IN. destruct (proj1 (N1' v)) as (NV & p' & Hp' & Ev); [lia|]. destruct (has_copy times shape HL HS p' Hp') as (p & Tp).
      assert (NP : zn lab p <> 0). { intros Z0. apply NV. rewrite <- Ev. apply Z2; auto. rewrite (HC _ _ Tp). apply Z1; auto. apply Tp. }
      destruct (leader lab (zprod shape) p (proj1 Tp) NP) as (r & Hr & Lr & Er). destruct (B p r p' Tp Hr (eq_sym Er)) as (r' & Tr & EQ).
      apply in_map_iff. exists r'. split; [congruence|]. apply filter_In. split; [apply zrange_In; apply Tr|]. rewrite (HI _ _ Tr). auto. }
    pose proof (NoDup_incl_length (zrange_NoDup _ _) GI) as LE. rewrite map_length in LE. unfold zrange in LE. rewrite zseq_length in LE. unfold lenZ. lia.
Qed.
