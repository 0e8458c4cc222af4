(** * AxesLaws: images with their axes in another order (proofs only) *)

From Coq Require Import ZArith List Bool Lia Permutation.
From Verif Require Import Base BaseLemmas Cluster Kernel SpecCluster ClusterGeom ClusterMain Dilate SpecDilate DilateTop
  SpecSymmetry DerivedCluster DerivedDilate SpecDilateLaws DilateLaws SpecAxes.
Import ListNotations.
Open Scope Z_scope.

Notation arr := (arranged 0%Z).

Lemma arr_length : forall A (m : A) o x, length (arranged m o x) = length o.
Proof. intros. apply map_length. Qed.

Lemma axes_length : forall o n, axes o n -> length o = n.
Proof. intros o n H. rewrite (Permutation_length H). apply seq_length. Qed.

Lemma arr_nth : forall A (m : A) o x i, (i < length o)%nat -> nth i (arranged m o x) m = nth (nth i o 0%nat) x m.
Proof.
  intros A m o x i H. unfold arranged. rewrite (nth_indep _ m (nth 0%nat x m)) by (rewrite map_length; exact H).
  exact (map_nth (fun a => nth a x m) o 0%nat i).
Qed.

Lemma axes_bound : forall o n i, axes o n -> (i < n)%nat -> (nth i o 0 < n)%nat.
Proof.
  intros o n i H Hi. assert (I : In (nth i o 0%nat) o) by (apply nth_In; rewrite (axes_length _ _ H); exact Hi).
  apply (Permutation_in _ H) in I. apply in_seq in I. lia.
Qed.

Lemma axes_inj : forall o n i j, axes o n -> (i < n)%nat -> (j < n)%nat -> nth i o 0%nat = nth j o 0%nat -> i = j.
Proof.
  intros o n i j H Hi Hj E. assert (N : NoDup o) by (eapply Permutation_NoDup; [symmetry; exact H|apply seq_NoDup]).
  pose proof (axes_length _ _ H). apply (proj1 (NoDup_nth o 0%nat) N); auto; lia.
Qed.

Lemma axes_at : forall o n i, axes o n -> (i < n)%nat -> exists k, (k < n)%nat /\ nth k o 0%nat = i.
Proof.
  intros o n i H Hi. assert (I : In i o) by (apply (Permutation_in _ (Permutation_sym H)); apply in_seq; lia).
  destruct (In_nth o i 0%nat I) as (k & K & E). exists k. rewrite (axes_length _ _ H) in K. auto.
Qed.

Lemma axes_inverse : forall o n, axes o n -> exists o', axes o' n /\ (forall i, (i < n)%nat -> nth (nth i o' 0%nat) o 0%nat = i) /\ (forall i, (i < n)%nat -> nth (nth i o 0%nat) o' 0%nat = i).
Proof.
  intros o n H.
  assert (X : forall m, (m <= n)%nat -> exists o', length o' = m /\ forall i, (i < m)%nat -> (nth i o' 0 < n)%nat /\ nth (nth i o' 0%nat) o 0%nat = i).
  { induction m as [|m IH]; intros Hm; [exists []; split; [reflexivity|intros; lia]|].
    destruct IH as (o' & L & P); [lia|]. destruct (axes_at o n m H) as (k & K & E); [lia|].
    exists (o' ++ [k]). split; [rewrite app_length; cbn; lia|]. intros i Hi. destruct (Nat.eq_dec i m) as [->|NE].
    - rewrite app_nth2, L, Nat.sub_diag by lia. cbn. auto.
    - rewrite app_nth1 by lia. apply P. lia. }
  destruct (X n ltac:(lia)) as (o' & L & P). exists o'. split; [|split].
  - apply NoDup_Permutation_bis.
    + apply (NoDup_nth o' 0%nat). intros i j Hi Hj E. rewrite L in *. rewrite <- (proj2 (P i Hi)), <- (proj2 (P j Hj)), E. reflexivity.
    + rewrite seq_length. lia.
    + intros k I. destruct (In_nth _ _ 0%nat I) as (i & Hi & <-). rewrite L in Hi. apply in_seq. destruct (P i Hi). lia.
  - intros i Hi. apply P. exact Hi.
  - intros i Hi. pose proof (axes_bound _ _ _ H Hi) as B. destruct (P _ B) as [B' E]. apply (axes_inj o n); auto.
Qed.

Lemma coords_len : forall s p, length (coords s p) = length s.
Proof. induction s as [|n s IH]; intros p; cbn [coords length]; [reflexivity|]. rewrite IH. reflexivity. Qed.

Lemma arr_ext : forall A (m : A) x y, length x = length y -> (forall i, (i < length x)%nat -> nth i x m = nth i y m) -> x = y.
Proof. intros A m x y L H. apply (nth_ext x y m m); auto. Qed.

(** The order that undoes [o]. *)
Lemma arr_inverse : forall o n, axes o n -> exists o', axes o' n /\
  (forall A (m : A) x, length x = n -> arranged m o' (arranged m o x) = x) /\ (forall A (m : A) x, length x = n -> arranged m o (arranged m o' x) = x).
Proof.
  intros o n H. destruct (axes_inverse o n H) as (o' & H' & P & P'). exists o'. split; [exact H'|]. pose proof (axes_length _ _ H). pose proof (axes_length _ _ H'). split.
  - intros A m x L. apply (arr_ext A m); [rewrite arr_length; lia|]. rewrite arr_length. intros i Hi.
    pose proof (axes_bound o' n i H' ltac:(lia)). rewrite !arr_nth by lia. rewrite P by lia. reflexivity.
  - intros A m x L. apply (arr_ext A m); [rewrite arr_length; lia|]. rewrite arr_length. intros i Hi.
    pose proof (axes_bound o n i H ltac:(lia)). rewrite !arr_nth by lia. rewrite P' by lia. reflexivity.
Qed.

Lemma arr_perm : forall A (m : A) o x, axes o (length x) -> Permutation (arranged m o x) x.
Proof.
  intros A m o x H. unfold arranged. etransitivity; [apply Permutation_map; exact H|]. 
  replace (map (fun a => nth a x m) (seq 0 (length x))) with x; [reflexivity|].
  apply (arr_ext A m); [rewrite map_length, seq_length; reflexivity|]. intros i Hi.
  rewrite (nth_indep (map _ _) m (nth 0%nat x m)) by (rewrite map_length, seq_length; exact Hi).
  rewrite (map_nth (fun a => nth a x m)), seq_nth by exact Hi. reflexivity.
Qed.

Lemma zprod_perm : forall a b, Permutation a b -> zprod a = zprod b.
Proof. intros a b H. induction H; cbn [zprod]; try lia; nia. Qed.

Lemma zprod_arr : forall o s, axes o (length s) -> zprod (arr o s) = zprod s.
Proof. intros. apply zprod_perm, arr_perm. assumption. Qed.

Lemma forall_arr : forall (P : Z -> Prop) o s, axes o (length s) -> Forall P s -> Forall P (arr o s).
Proof. intros P o s H F. eapply Permutation_Forall; [|exact F]. symmetry. apply arr_perm. exact H. Qed.

(** ** Point by point *)
Definition pointwise (per : bool) (s a d b : list Z) : Prop :=
  length a = length s /\ length d = length s /\ length b = length s /\
  forall i, (i < length s)%nat -> if per then nth i b 0 = (nth i a 0 + nth i d 0) mod (nth i s 0) else nth i b 0 = nth i a 0 + nth i d 0.

Lemma moved_iff : forall per s a d b, moved per s a d b <-> pointwise per s a d b.
Proof.
  intros per. unfold pointwise. induction s as [|n s IH]; intros [|x a] [|t d] [|y b]; cbn [moved length]; try (split; [tauto|intros; lia]).
  - split; auto. intros _. repeat split; auto. intros i Hi. lia.
  - rewrite IH. split.
    + intros (E & L1 & L2 & L3 & H). repeat split; try lia. intros [|i] Hi; cbn [nth]; [destruct per; lia|]. apply H. lia.
    + intros (L1 & L2 & L3 & H). split; [exact (H 0%nat ltac:(lia))|]. repeat split; try lia. intros i Hi. apply (H (S i)). lia.
Qed.

Lemma inside_iff : forall s a, inside s a <-> length a = length s /\ forall i, (i < length s)%nat -> 0 <= nth i a 0 < nth i s 0.
Proof.
  induction s as [|n s IH]; intros [|x a]; cbn [inside length]; try (split; [tauto|intros; lia]).
  - split; auto. intros _. split; auto. intros; lia.
  - rewrite IH. split.
    + intros (E & L & H). split; [lia|]. intros [|i] Hi; cbn [nth]; [lia|]. apply H. lia.
    + intros (L & H). split; [exact (H 0%nat ltac:(lia))|]. split; [lia|]. intros i Hi. apply (H (S i)). lia.
Qed.

Definition one_step (per : bool) (n x y : Z) : Prop := if per then y = (x + 1) mod n \/ y = (x - 1) mod n else y = x + 1 \/ y = x - 1.

Lemma face_iff : forall per s a b, length a = length s -> length b = length s ->
  (face per s a b <-> exists i, (i < length s)%nat /\ one_step per (nth i s 0) (nth i a 0) (nth i b 0) /\ forall j, (j < length s)%nat -> j <> i -> nth j a 0 = nth j b 0).
Proof.
  intros per. induction s as [|n s IH]; intros [|x a] [|y b]; cbn [face length]; intros La Lb; try lia.
  - split; [tauto|]. intros (i & Hi & _). lia.
  - rewrite IH by lia. split.
    + intros [[E (i & Hi & H1 & H2)]|[E H]].
      * exists (S i). split; [lia|]. split; [exact H1|]. intros [|j] Hj NE; cbn [nth]; [exact E|]. apply H2; lia.
      * exists 0%nat. split; [lia|]. split; [exact E|]. intros [|j] Hj NE; [lia|]. cbn [nth]. rewrite H. reflexivity.
    + intros ([|i] & Hi & H1 & H2).
      * right. split; [exact H1|]. apply (nth_ext a b 0 0); [lia|]. intros j Hj. apply (H2 (S j)); lia.
      * left. split; [apply (H2 0%nat); lia|]. exists i. split; [lia|]. split; [exact H1|]. intros j Hj NE. apply (H2 (S j)); lia.
Qed.

Lemma half_iff : forall s k, length s = length k -> (half_fits s k <-> forall i, (i < length s)%nat -> nth i k 0 / 2 <= nth i s 0).
Proof.
  induction s as [|n s IH]; intros [|x k]; cbn [half_fits length]; intros L; try lia.
  - split; auto. intros; lia.
  - rewrite IH by lia. split.
    + intros [E H] [|i] Hi; cbn [nth]; [exact E|]. apply H. lia.
    + intros H. split; [exact (H 0%nat ltac:(lia))|]. intros i Hi. apply (H (S i)). lia.
Qed.

Section Order.
Variable o : list nat.
Variable n : nat.
Hypothesis HO : axes o n.

Lemma moved_arr : forall per s a d b, length s = n -> moved per s a d b -> moved per (arr o s) (arr o a) (arr o d) (arr o b).
Proof.
  intros per s a d b L M. apply moved_iff in M. destruct M as (L1 & L2 & L3 & M). apply moved_iff. unfold pointwise. rewrite !arr_length.
  repeat split; auto. intros i Hi. pose proof (axes_length _ _ HO) as LO. pose proof (axes_bound o n i HO ltac:(lia)). rewrite !arr_nth by lia. apply M. lia.
Qed.

Lemma inside_arr : forall s a, length s = n -> inside s a -> inside (arr o s) (arr o a).
Proof.
  intros s a L M. apply inside_iff in M. destruct M as (L1 & M). apply inside_iff. rewrite !arr_length.
  split; auto. intros i Hi. pose proof (axes_length _ _ HO) as LO. pose proof (axes_bound o n i HO ltac:(lia)). rewrite !arr_nth by lia. apply M. lia.
Qed.

Lemma half_arr : forall s k, length s = n -> length k = n -> half_fits s k -> half_fits (arr o s) (arr o k).
Proof.
  intros s k L L' M. rewrite half_iff in M by lia. apply half_iff; rewrite ?arr_length; auto.
  intros i Hi. pose proof (axes_length _ _ HO) as LO. pose proof (axes_bound o n i HO ltac:(lia)). rewrite !arr_nth by lia. apply M. lia.
Qed.

Lemma face_arr : forall per s a b, length s = n -> length a = n -> length b = n -> face per s a b -> face per (arr o s) (arr o a) (arr o b).
Proof.
  intros per s a b L L1 L2 M. rewrite face_iff in M by lia. destruct M as (i & Hi & H1 & H2). apply face_iff; rewrite ?arr_length; auto.
  pose proof (axes_length _ _ HO) as LO. destruct (axes_at o n i HO ltac:(lia)) as (k & K & E). exists k. split; [lia|]. split.
  - rewrite !arr_nth by lia. rewrite E. exact H1.
  - intros j Hj NE. rewrite !arr_nth by lia. pose proof (axes_bound o n j HO ltac:(lia)). apply H2; [lia|]. intros X. apply NE. apply (axes_inj o n); auto; lia.
Qed.

End Order.

Lemma good_shape_arr : forall o n (HO : axes o n) shape, length shape = n -> good_shape shape -> good_shape (arr o shape).
Proof.
  intros o n HO shape L (H1 & H2 & H3). subst n. split; [|split].
  - intros E. apply H1. apply length_zero_iff_nil. rewrite <- (axes_length _ _ HO), <- (arr_length Z 0 o shape), E. reflexivity.
  - apply forall_arr; auto.
  - rewrite zprod_arr; auto.
Qed.

Lemma permutes_total : forall o n (HO : axes o n) shape p, length shape = n -> Forall (fun n => 0 < n) shape -> pixel shape p -> exists q, permutes o shape p q.
Proof.
  intros o n HO shape p L HS Hp. subst n.
  destruct (pixel_of_coords (arr o shape) (arr o (coords shape p))) as (q & Hq & E).
  - apply (inside_arr o _ HO); auto. apply coords_inside; auto.
  - exists q. split; auto.
Qed.

Lemma permutes_functional : forall o n (HO : axes o n) shape p q q', length shape = n -> Forall (fun n => 0 < n) shape -> permutes o shape p q -> permutes o shape p q' -> q = q'.
Proof.
  intros o n HO shape p q q' L HS (H1 & H2 & H3) (_ & H4 & H5). subst n. apply (coords_inj (arr o shape)); auto; [|congruence]. apply forall_arr; auto.
Qed.

Lemma permutes_sym : forall o o' shape, (forall x, length x = length shape -> arr o' (arr o x) = x) ->
  forall p q, permutes o shape p q -> permutes o' (arr o shape) q p.
Proof.
  intros o o' shape HI p q (H1 & H2 & H3). unfold permutes. rewrite HI by reflexivity. split; [exact H2|]. split; [exact H1|].
  rewrite H3, HI; [reflexivity|]. apply coords_len.
Qed.

Lemma pos_arr : forall o shape, axes o (length shape) -> (forall p, pixel shape p -> Forall (fun n => 0 < n) shape) ->
  forall p, pixel (arr o shape) p -> Forall (fun n => 0 < n) shape.
Proof. intros o shape HO H p Hp. apply (H p). unfold pixel in *. rewrite zprod_arr in Hp; auto. Qed.

Lemma permutes_matching : forall o shape, axes o (length shape) -> (forall p, pixel shape p -> Forall (fun n => 0 < n) shape) ->
  matching shape (arr o shape) (permutes o shape).
Proof.
  intros o shape HO HS. pose proof (pos_arr _ _ HO HS) as HS'. destruct (arr_inverse o _ HO) as (o' & HO' & I1 & I2).
  pose proof (axes_length _ _ HO) as LO. pose proof (axes_length _ _ HO') as LO'.
  assert (LA : length (arr o shape) = length shape) by (rewrite arr_length; exact LO).
  pose proof (permutes_sym o o' shape (I1 Z 0)) as PS.
  assert (PS' : forall p q, permutes o' (arr o shape) p q -> permutes o shape q p).
  { intros p q H. apply (permutes_sym o' o) in H; [|intros x Lx; apply I2; lia]. rewrite (I1 Z 0 shape eq_refl) in H. exact H. }
  unfold matching. split; [|split; [|split; [|split]]].
  - intros x x' H. split; apply H.
  - intros x Hx. apply (permutes_total o (length shape)); auto. eapply HS; eauto.
  - intros x Hx. destruct (permutes_total o' (length shape) HO' (arr o shape) x LA) as (q & Hq); auto.
    + apply forall_arr; auto. eapply HS'; eauto.
    + exists q. apply PS'. exact Hq.
  - intros x x' x'' H1 H2. apply (permutes_functional o (length shape) HO shape x x' x''); auto. eapply HS. apply H1.
  - intros x y x' H1 H2. apply (permutes_functional o' (length shape) HO' (arr o shape) x' x y); auto.
    apply forall_arr; auto. eapply HS. apply H1.
Qed.

(** The positions of the pixels determine one another. *)
Lemma permutes_back : forall o shape (P : list Z -> list Z -> list Z -> Prop), axes o (length shape) ->
  (forall o s a b, axes o (length s) -> length a = length s -> length b = length s -> P s a b -> P (arr o s) (arr o a) (arr o b)) ->
  forall x x' y y', permutes o shape x x' -> permutes o shape y y' ->
  (P shape (coords shape x) (coords shape y) <-> P (arr o shape) (coords (arr o shape) x') (coords (arr o shape) y')).
Proof.
  intros o shape P HO HP x x' y y' (_ & _ & E) (_ & _ & E'). rewrite E, E'. split; intros H.
  - apply HP; auto; apply coords_len.
  - destruct (arr_inverse o _ HO) as (o' & HO' & I1 & I2). pose proof (axes_length _ _ HO).
    apply (HP o') in H; rewrite ?arr_length; try congruence. rewrite !I1 in H; auto; apply coords_len.
Qed.

(** ** Clusters *)
Lemma permuted_clusters : forall asrt order shape img img' per, good_shape shape -> (length shape <= 3)%nat -> axes order (length shape) ->
  lenZ img = zprod shape -> lenZ img' = zprod shape -> carried (permutes order shape) img img' ->
  exists lab lab', clusters asrt shape img per = Ok lab /\ clusters asrt (arranged 0 order shape) img' per = Ok lab' /\
    forall p q p' q', permutes order shape p p' -> permutes order shape q q' ->
      (zn lab p = 0 <-> zn lab' p' = 0) /\ (zn lab p = zn lab q <-> zn lab' p' = zn lab' q').
Proof.
  intros asrt o shape img img' per HS HR HO L L' HC. pose proof (good_shape_arr o _ HO _ eq_refl HS) as HS'.
  apply clusters_moved; auto.
  - rewrite arr_length, (axes_length _ _ HO). exact HR.
  - rewrite zprod_arr; auto.
  - apply permutes_matching; auto. intros p. apply good_pos. exact HS.
  - intros x x' y y' X Y. pose proof X as (A1 & A2 & _). pose proof Y as (B1 & B2 & _). unfold face_neighbour.
    pose proof (permutes_back o shape (face per) HO (fun o0 s a b HO0 La Lb => face_arr o0 (length s) HO0 per s a b eq_refl La Lb) x x' y y' X Y) as Q. tauto.
Qed.

(** ** Dilation *)
Lemma anchor_arr : forall o ks, axes o (length ks) -> anchor (arr o ks) = arr o (anchor ks).
Proof.
  intros o ks HO. pose proof (axes_length _ _ HO). apply (arr_ext Z 0).
  - unfold anchor. rewrite map_length, !arr_length. reflexivity.
  - unfold anchor. rewrite map_length, arr_length. intros i Hi. pose proof (axes_bound o _ i HO ltac:(lia)) as B.
    set (f := fun m : Z => (m - 1) / 2). rewrite (nth_indep _ 0 (f 0)) by (rewrite map_length, arr_length; exact Hi).
    rewrite map_nth, !arr_nth by lia. rewrite (nth_indep (map f ks) 0 (f 0)) by (rewrite map_length; exact B). rewrite map_nth. reflexivity.
Qed.

Lemma offset_arr : forall o ks kv kv' d, axes o (length ks) -> Forall (fun n => 0 < n) ks -> (forall r r', permutes o ks r r' -> zn kv' r' = zn kv r) ->
  kernel_offset ks kv d -> kernel_offset (arr o ks) kv' (arr o d).
Proof.
  intros o ks kv kv' d HO HP HC (r & Pr & V & M). destruct (permutes_total o _ HO ks r eq_refl HP Pr) as (r' & T).
  exists r'. split; [apply T|]. split; [rewrite (HC r r' T); exact V|]. rewrite anchor_arr by exact HO. destruct T as (_ & _ & ->). now apply (moved_arr o (length ks)).
Qed.

Lemma step_arr : forall o per shape ks kv kv' x x' y y', axes o (length shape) -> length ks = length shape -> Forall (fun n => 0 < n) ks ->
  (forall r r', permutes o ks r r' -> zn kv' r' = zn kv r) -> permutes o shape x x' -> permutes o shape y y' ->
  kernel_step per shape ks kv x y -> kernel_step per (arr o shape) (arr o ks) kv' x' y'.
Proof.
  intros o per shape ks kv kv' x x' y y' HO LK HP HC (A0 & A1 & A2) (B0 & B1 & B2) (C1 & C2 & d & K & M).
  split; [exact A1|]. split; [exact B1|]. exists (arr o d). split; [apply (offset_arr o ks kv); auto; rewrite LK; auto|]. rewrite A2, B2. now apply (moved_arr o (length shape)).
Qed.

Lemma permuted_dilation : forall asrt order shape f f' ks kv kv' n per, dilatable_n per shape f ks kv -> dilatable_n per (arranged 0 order shape) f' (arranged 0 order ks) kv' ->
  0 <= n -> axes order (length shape) -> carried (permutes order shape) f f' -> carried (permutes order ks) kv kv' ->
  exists a b, dilate_n asrt shape f ks kv n per = Ok a /\ dilate_n asrt (arranged 0 order shape) f' (arranged 0 order ks) kv' n per = Ok b /\
    forall p p', permutes order shape p p' -> (zn a p <> 0 <-> zn b p' <> 0).
Proof.
  intros asrt o shape f f' ks kv kv' n per H H' Hn HO HC HK. pose proof (carried_zn _ _ _ HK) as HZ.
  pose proof H as (_ & (HI & _) & LK & HKer & _). pose proof (image_pos _ HI) as HS. pose proof (kernel_pos _ _ HKer) as HP.
  destruct (arr_inverse o _ HO) as (o' & HO' & I1 & I2). pose proof (axes_length _ _ HO) as LO.
  assert (LA : length (arr o shape) = length shape) by (rewrite arr_length; exact LO).
  assert (LAk : length (arr o ks) = length shape) by (rewrite arr_length; exact LO).
  apply dilate_matched; auto. { apply permutes_matching; auto. }
  intros x x' y y' A B. split.
  - now apply (step_arr o per shape ks kv kv').
  - intro K. apply (step_arr o' per (arr o shape) (arr o ks) kv' kv x' x y' y) in K.
    + rewrite !I1 in K; auto.
    + rewrite LA. exact HO'.
    + congruence.
    + apply forall_arr; auto. rewrite LK. exact HO.
    + intros r r' T. apply (permutes_sym o' o) in T; [|intros z Lz; apply I2; lia]. rewrite I1 in T by exact LK. symmetry. now apply HZ.
    + apply (permutes_sym o o'); auto.
    + apply (permutes_sym o o'); auto.
Qed.

(** ** The reversal is one of the orders *)
Lemma rev_arr : forall (x : list Z) n, length x = n -> arr (rev (seq 0 n)) x = rev x.
Proof.
  intros x n L. apply (arr_ext Z 0); [rewrite arr_length, !rev_length, seq_length; lia|]. rewrite arr_length, rev_length, seq_length. intros i Hi.
  rewrite arr_nth by (rewrite rev_length, seq_length; exact Hi). rewrite (rev_nth (seq 0 n)) by (rewrite seq_length; exact Hi). rewrite seq_length, seq_nth by lia. rewrite (rev_nth x) by lia. f_equal. lia.
Qed.

Lemma reversed_axes : forall shape p q, axes (rev (seq 0 (length shape))) (length shape) /\
  (permutes (rev (seq 0 (length shape))) shape p q <-> transposes shape p q).
Proof.
  intros shape p q. split; [unfold axes; symmetry; apply Permutation_rev|]. unfold permutes, transposes. rewrite !rev_arr; try reflexivity. apply coords_len.
Qed.
