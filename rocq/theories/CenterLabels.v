(** * CenterLabels: centers of labels (proofs only) *)

From Coq Require Import ZArith List Bool Reals Lra Lia Permutation.
From Verif Require Import Base BaseLemmas Cluster SpecCluster ClusterGeom KernelProofs Center SpecCenter
  CenterProofs CenterTop.
Import ListNotations.
Open Scope Z_scope.

(** The flat indices that [argwhere] finds. *)
Definition hits (labels : list Z) (name : Z) : list Z :=
  map fst (filter (fun ip => negb (snd ip =? 0))
    (combine (zseq 0 (length labels)) (map (fun l => if l =? name then 1 else 0) labels))).

Lemma where_equal_hits : forall shape labels name,
  where_equal shape labels name = map (coords shape) (hits labels name).
Proof.
  intros. unfold where_equal, argwhere, hits. rewrite map_map, map_length.
  apply map_ext. intro a. apply unravel_coords.
Qed.

Lemma hits_from_In : forall labels name a p,
  In p (map fst (filter (fun ip => negb (snd ip =? 0))
    (combine (zseq a (length labels)) (map (fun l => if l =? name then 1 else 0) labels))))
  <-> a <= p < a + lenZ labels /\ nth (Z.to_nat (p - a)) labels 0 = name.
Proof.
  induction labels as [|x t IH]; intros name a p.
  - cbn. unfold lenZ; cbn. split; [tauto|lia].
  - cbn [length zseq map combine filter snd]. rewrite lenZ_cons. pose proof (lenZ_nonneg _ t).
    assert (T : (a + 1 <= p < a + 1 + lenZ t /\ nth (Z.to_nat (p - (a + 1))) t 0 = name) <->
                (a < p < a + (lenZ t + 1) /\ nth (Z.to_nat (p - a)) (x :: t) 0 = name)).
    { split; intros [B E]; (split; [lia|]).
      - replace (Z.to_nat (p - a)) with (S (Z.to_nat (p - (a + 1)))) by lia. exact E.
      - replace (Z.to_nat (p - a)) with (S (Z.to_nat (p - (a + 1)))) in E by lia. exact E. }
    destruct (x =? name) eqn:X; cbn [negb Z.eqb map fst In]; rewrite IH, T.
    + apply Z.eqb_eq in X. split.
      * intros [<-|[B E]]; [|split; [lia|exact E]]. split; [lia|]. rewrite Z.sub_diag. exact X.
      * intros [B E]. destruct (Z.eq_dec a p); [now left|right]. split; [lia|exact E].
    + apply Z.eqb_neq in X. split; intros [B E]; (split; [|exact E]); [lia|].
      destruct (Z.eq_dec a p) as [->|]; [|lia]. rewrite Z.sub_diag in E. cbn in E. congruence.
Qed.

Lemma hits_In : forall labels name p, In p (hits labels name)
  <-> 0 <= p < lenZ labels /\ nth (Z.to_nat p) labels 0 = name.
Proof. intros. unfold hits. rewrite hits_from_In, Z.sub_0_r, Z.add_0_l. reflexivity. Qed.

Lemma hits_from_NoDup : forall labels (f : Z -> Z) a,
  NoDup (map fst (filter (fun ip => negb (snd ip =? 0)) (combine (zseq a (length labels)) (map f labels)))).
Proof.
  induction labels as [|x t IH]; intros f a; cbn [length zseq map combine filter snd]; [constructor|].
  assert (N : ~ In a (map fst (filter (fun ip => negb (snd ip =? 0)) (combine (zseq (a + 1) (length t)) (map f t))))).
  { intro H. apply in_map_iff in H. destruct H as ([q v] & E & H). cbn in E. subst q.
    apply filter_In in H. destruct H as [H _]. apply in_combine_l in H. apply zseq_In in H. lia. }
  destruct (negb (f x =? 0)); cbn [map fst]; [constructor|]; auto.
Qed.

Lemma hits_carries : forall shape labels name, lenZ labels = zprod shape ->
  carries shape labels name (hits labels name).
Proof.
  intros shape labels name L. split; [apply hits_from_NoDup|]. intro p. rewrite hits_In, L. reflexivity.
Qed.

Lemma carries_perm : forall shape labels name l l', carries shape labels name l ->
  carries shape labels name l' -> Permutation l l'.
Proof.
  intros shape labels name l l' [N H] [N' H']. apply NoDup_Permutation; auto.
  intro p. rewrite H, H'. reflexivity.
Qed.

Lemma coords_length : forall shape p, length (coords shape p) = length shape.
Proof. induction shape; cbn; intros; auto. Qed.

Lemma positions_fit : forall shape pixels, fit (map IZR shape) (positions_of shape pixels).
Proof.
  intros shape pixels p Hp. apply in_map_iff in Hp. destruct Hp as (q & <- & _).
  rewrite !map_length. apply coords_length.
Qed.

Lemma to_double_hits : forall shape labels name,
  to_double (where_equal shape labels name) = positions_of shape (hits labels name).
Proof. intros. unfold to_double, positions_of. now rewrite where_equal_hits, map_map. Qed.

Lemma zeros_shape : forall (shape : list Z), map (fun _ : Z => Num 0) shape = map (fun _ : R => Num 0) (map IZR shape).
Proof. intros. now rewrite map_map. Qed.

Lemma no_positions_center : forall shape ps per, no_positions shape ps = true -> fit shape ps ->
  center shape ps per = Ok (map (fun _ => Num 0) shape).
Proof. intros shape ps per H F. unfold center. rewrite (proj2 (rows_fit_iff _ _) F), H. reflexivity. Qed.

Lemma no_positions_mass : forall shape ps ws per, no_positions shape ps = true -> fit shape ps ->
  center_of_mass shape ps ws per = Ok (map (fun _ => Num 0) shape).
Proof. intros shape ps ws per H F. unfold center_of_mass. rewrite (proj2 (rows_fit_iff _ _) F), H. reflexivity. Qed.

Lemma center_total : forall shape ps per, fit shape ps -> exists r, center shape ps per = Ok r.
Proof.
  intros shape ps per F. unfold center. rewrite (proj2 (rows_fit_iff _ _) F). cbn [negb].
  destruct (no_positions shape ps); eauto.
Qed.

Lemma mass_total : forall shape ps ws per, fit shape ps -> length ws = length ps ->
  exists r, center_of_mass shape ps ws per = Ok r.
Proof.
  intros shape ps ws per F L. unfold center_of_mass. rewrite (proj2 (rows_fit_iff _ _) F), L, Nat.eqb_refl. cbn [negb].
  destruct (no_positions shape ps); eauto.
Qed.

Lemma mapM_all : forall {A B} (f : A -> res B) (P : A -> B -> Prop) l,
  (forall a, In a l -> exists b, f a = Ok b /\ P a b) ->
  exists r, mapM f l = Ok r /\ Forall2 P l r.
Proof.
  induction l as [|a t IH]; intro H; [exists []; split; [reflexivity|constructor]|].
  destruct (H a (or_introl eq_refl)) as (b & E & Q). destruct IH as (r & E' & F); [intros; apply H; now right|].
  exists (b :: r). split; [|now constructor]. cbn. rewrite E. cbn. rewrite E'. reflexivity.
Qed.

Lemma labels_centers_ok : forall asrt shape labels names per, shape <> [] -> lenZ labels = zprod shape ->
  exists rows, labels_centers asrt shape labels names per = Ok rows /\
    Forall2 (fun name row => forall pixels, carries shape labels name pixels ->
               center (map IZR shape) (positions_of shape pixels) per = Ok row) names rows.
Proof.
  intros asrt shape labels names per N L. unfold labels_centers.
  replace (assertb asrt (Nat.ltb 0 (length shape))) with (Ok tt) by (destruct asrt, shape; cbn; congruence).
  cbn [bind]. apply mapM_all. intros name _. rewrite to_double_hits.
  set (ps := positions_of shape (hits labels name)).
  destruct (center_total (map IZR shape) ps per (positions_fit _ _)) as [r E].
  exists r. split.
  - destruct (no_positions (map IZR shape) ps) eqn:NP; [|assumption].
    rewrite zeros_shape, <- E. symmetry. apply no_positions_center; auto. apply positions_fit.
  - intros pixels C. rewrite <- E. apply center_perm. apply Permutation_map.
    eapply carries_perm; [exact C|now apply hits_carries].
Qed.

Lemma labels_centers_rank0 : forall labels names per, labels_centers true [] labels names per = Throw.
Proof. reflexivity. Qed.

Lemma zprod_zero : forall shape, Forall (fun n => 0 <= n) shape -> 0 < zprod shape -> Forall (fun n => 0 < n) shape.
Proof.
  induction shape as [|n t IH]; intros F H; [constructor|]. inversion F; subst. cbn in H.
  assert (0 <= zprod t). { clear -H3. induction t; cbn; [lia|]. inversion H3; subst. specialize (IHt H2). nia. }
  constructor; [nia|]. apply IH; auto. nia.
Qed.

Lemma vget_nth : forall {A} (l : list A) i d, 0 <= i < lenZ l -> vget l i = Ok (nth (Z.to_nat i) l d).
Proof.
  intros A l i d H. unfold vget, lenZ in *. replace (i <? 0) with false by lia.
  rewrite (nth_error_nth' l d) by lia. reflexivity.
Qed.

Lemma weights_ok : forall shape labels name (w : list R), Forall (fun n => 0 <= n) shape ->
  lenZ labels = zprod shape -> lenZ w = zprod shape ->
  weights_at shape w (where_equal shape labels name) = Ok (map (fun p => nth (Z.to_nat p) w 0%R) (hits labels name)).
Proof.
  intros shape labels name w F L LW. rewrite where_equal_hits. unfold weights_at.
  assert (H : forall p, In p (hits labels name) -> 0 <= p < zprod shape).
  { intros p Hp. apply hits_In in Hp. lia. }
  induction (hits labels name) as [|p t IH]; [reflexivity|]. cbn [map mapM].
  assert (Hp : pixel shape p) by (apply H; now left).
  assert (P : Forall (fun n => 0 < n) shape) by (apply zprod_zero; auto; unfold pixel in Hp; lia).
  rewrite dot_strides, ravel_coords by (auto; now apply coords_inside).
  rewrite (vget_nth w p 0%R) by (unfold pixel in Hp; lia). cbn [bind].
  rewrite IH by (intros; apply H; now right). reflexivity.
Qed.

Lemma labels_mass_ok : forall asrt shape labels w names per, shape <> [] -> Forall (fun n => 0 <= n) shape ->
  lenZ labels = zprod shape -> lenZ w = zprod shape ->
  exists rows, labels_centers_of_mass asrt shape labels shape w names per = Ok rows /\
    Forall2 (fun name row => forall pixels, carries shape labels name pixels ->
               center_of_mass (map IZR shape) (positions_of shape pixels)
                 (map (fun p => nth (Z.to_nat p) w 0%R) pixels) per = Ok row) names rows.
Proof.
  intros asrt shape labels w names per N F L LW. unfold labels_centers_of_mass.
  assert (EQ : eqbl shape shape = true) by (clear; induction shape; cbn; rewrite ?Z.eqb_refl; auto).
  rewrite EQ. replace (assertb asrt true) with (Ok tt) by (destruct asrt; reflexivity).
  replace (assertb asrt (Nat.ltb 0 (length shape))) with (Ok tt) by (destruct asrt, shape; cbn; congruence).
  cbn [bind]. apply mapM_all. intros name _. rewrite to_double_hits, weights_ok by assumption. cbn [bind].
  set (h := hits labels name).
  destruct (mass_total (map IZR shape) (positions_of shape h) (map (fun p => nth (Z.to_nat p) w 0%R) h) per
              (positions_fit _ _)) as [r E]; [unfold positions_of; now rewrite !map_length|].
  exists r. split.
  - destruct (no_positions (map IZR shape) (positions_of shape h)) eqn:NP; [|assumption].
    rewrite zeros_shape, <- E. symmetry. apply no_positions_mass; auto. apply positions_fit.
  - intros pixels C. rewrite <- E.
    assert (P : Permutation pixels h) by (eapply carries_perm; [exact C|now apply hits_carries]).
    set (g := fun p => (map IZR (coords shape p), nth (Z.to_nat p) w 0%R) : mass).
    assert (G1 : forall l, positions_of shape l = map fst (map g l)) by (intro; unfold g; rewrite map_map; reflexivity).
    assert (G2 : forall l, map (fun p => nth (Z.to_nat p) w 0%R) l = map snd (map g l)) by (intro; unfold g; rewrite map_map; reflexivity).
    rewrite !G1, !G2. apply mass_perm; [rewrite <- G1; apply positions_fit|]. now apply Permutation_map.
Qed.

Lemma labels_mass_shape : forall shape labels wshape w names per, wshape <> shape ->
  labels_centers_of_mass true shape labels wshape w names per = Throw.
Proof.
  intros shape labels wshape w names per N. unfold labels_centers_of_mass.
  destruct (eqbl shape wshape) eqn:E; [|reflexivity].
  exfalso. apply N. clear N. revert wshape E. induction shape as [|a t IH]; destruct wshape; cbn; intro E; try discriminate; [reflexivity|].
  apply andb_true_iff in E. destruct E as [E1 E2]. apply Z.eqb_eq in E1. subst. f_equal. auto.
Qed.
