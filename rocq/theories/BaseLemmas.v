(** * Lemmas about the base vocabulary (no model content). *)

From Coq Require Import ZArith List Bool Lia.
From Verif Require Import Base.
Import ListNotations.
Open Scope Z_scope.

Lemma bind_ok : forall A B (x : res A) (f : A -> res B) b,
  bind x f = Ok b -> exists a, x = Ok a /\ f a = Ok b.
Proof. intros A B [a| | |] f b H; simpl in H; try discriminate; eauto. Qed.

Lemma bind_Ok : forall A B (a : A) (f : A -> res B), bind (Ok a) f = f a.
Proof. reflexivity. Qed.

Ltac binv H :=
  let a := fresh "a" in let H1 := fresh "H" in
  apply bind_ok in H; destruct H as (a & H1 & H).

Lemma lenZ_nonneg : forall A (l : list A), 0 <= lenZ l.
Proof. intros; unfold lenZ; lia. Qed.

Lemma lenZ_app : forall A (a b : list A), lenZ (a ++ b) = lenZ a + lenZ b.
Proof. intros; unfold lenZ; rewrite app_length; lia. Qed.

Lemma lenZ_cons : forall A (x : A) l, lenZ (x :: l) = 1 + lenZ l.
Proof. intros; unfold lenZ; cbn [length]; lia. Qed.

Lemma upd_length : forall A n (v : A) l, length (upd n v l) = length l.
Proof. intros A n v l; revert n; induction l; intros [|n]; simpl; auto. Qed.

Lemma upd_nth : forall A n m (v d : A) l, (n < length l)%nat ->
  nth m (upd n v l) d = if Nat.eqb n m then v else nth m l d.
Proof.
  intros A n m v d l; revert n m; induction l as [|x l IH]; intros n m H; simpl in H; [lia|].
  destruct n, m; simpl; auto.
  rewrite IH by lia; auto.
Qed.

Lemma vget_ok : forall l i, 0 <= i < lenZ l -> vget l i = Ok (zn l i).
Proof.
  intros l i H. unfold vget, zn. destruct (i <? 0) eqn:E; [lia|].
  rewrite nth_error_nth' with (d := 0); auto. unfold lenZ in H; lia.
Qed.

Lemma vget_inv : forall A (l : list A) i a, vget l i = Ok a -> 0 <= i < lenZ l.
Proof.
  intros A l i a H. unfold vget in H. destruct (i <? 0) eqn:E; [discriminate|].
  destruct (nth_error l (Z.to_nat i)) eqn:F; [|discriminate].
  assert (nth_error l (Z.to_nat i) <> None) by congruence.
  apply nth_error_Some in H0. unfold lenZ; lia.
Qed.

Lemma vset_ok : forall A (l : list A) i v, 0 <= i < lenZ l ->
  vset l i v = Ok (upd (Z.to_nat i) v l).
Proof. intros. unfold vset. destruct (i <? 0) eqn:E, (lenZ l <=? i) eqn:F; simpl; auto; lia. Qed.

Lemma upd_lenZ : forall A i (v : A) l, lenZ (upd i v l) = lenZ l.
Proof. intros; unfold lenZ; now rewrite upd_length. Qed.

Lemma zn_upd : forall l i j v, 0 <= i < lenZ l -> 0 <= j ->
  zn (upd (Z.to_nat i) v l) j = if i =? j then v else zn l j.
Proof.
  intros l i j v Hi Hj. unfold zn, lenZ in *. rewrite upd_nth by lia.
  destruct (i =? j) eqn:E; destruct (Nat.eqb (Z.to_nat i) (Z.to_nat j)) eqn:F; auto.
  - apply Nat.eqb_neq in F; lia.
  - apply Nat.eqb_eq in F; lia.
Qed.

Lemma zn_out : forall l i, lenZ l <= i -> zn l i = 0.
Proof. intros; unfold zn, lenZ in *; apply nth_overflow; lia. Qed.

Lemma zseq_length : forall n a, length (zseq a n) = n.
Proof. induction n; intros; simpl; auto. Qed.

Lemma zseq_lenZ : forall n a, lenZ (zseq a n) = Z.of_nat n.
Proof. intros; unfold lenZ; now rewrite zseq_length. Qed.

Lemma zseq_nth : forall n a k d, (k < n)%nat -> nth k (zseq a n) d = a + Z.of_nat k.
Proof.
  induction n; intros; [lia|]. destruct k; simpl; [lia|]. rewrite IHn by lia. lia.
Qed.

Lemma zn_zseq : forall n a i, 0 <= i < Z.of_nat n -> zn (zseq a n) i = a + i.
Proof. intros; unfold zn; rewrite zseq_nth by lia; lia. Qed.

Lemma zseq_In : forall n a i, In i (zseq a n) <-> a <= i < a + Z.of_nat n.
Proof.
  induction n; intros; simpl; [lia|]. rewrite IHn. lia.
Qed.

Lemma zseq_app : forall n m a, zseq a (n + m) = zseq a n ++ zseq (a + Z.of_nat n) m.
Proof.
  induction n; intros.
  - cbn [Nat.add zseq app]. f_equal; lia.
  - cbn [Nat.add zseq app]. rewrite IHn. do 2 f_equal. f_equal. lia.
Qed.

Lemma zseq_S : forall n a, zseq a (S n) = zseq a n ++ [a + Z.of_nat n].
Proof. intros. rewrite <- Nat.add_1_r, zseq_app. reflexivity. Qed.

Lemma zseq_NoDup : forall n a, NoDup (zseq a n).
Proof.
  induction n; intros; simpl; constructor; auto. rewrite zseq_In; lia.
Qed.

Lemma zrange_In : forall a b i, In i (zrange a b) <-> a <= i < b.
Proof. intros; unfold zrange; rewrite zseq_In; lia. Qed.

Lemma zrange_NoDup : forall a b, NoDup (zrange a b).
Proof. intros; apply zseq_NoDup. Qed.

Lemma zrange_length : forall a b, length (zrange a b) = Z.to_nat (b - a).
Proof. intros; apply zseq_length. Qed.

Lemma zrange_S : forall a b, a <= b -> zrange a (b + 1) = zrange a b ++ [b].
Proof.
  intros. unfold zrange. replace (Z.to_nat (b + 1 - a)) with (S (Z.to_nat (b - a))) by lia.
  rewrite zseq_S. do 2 f_equal. lia.
Qed.

Lemma zrange_cons : forall a b, a < b -> zrange a b = a :: zrange (a + 1) b.
Proof.
  intros. unfold zrange. replace (Z.to_nat (b - a)) with (S (Z.to_nat (b - (a + 1)))) by lia.
  reflexivity.
Qed.

Lemma zrange_nil : forall a b, b <= a -> zrange a b = [].
Proof. intros. unfold zrange. replace (Z.to_nat (b - a)) with O by lia. reflexivity. Qed.

Lemma zrange_split : forall a b c, a <= b <= c -> zrange a c = zrange a b ++ zrange b c.
Proof.
  intros. unfold zrange.
  replace (Z.to_nat (c - a)) with (Z.to_nat (b - a) + Z.to_nat (c - b))%nat by lia.
  rewrite zseq_app. do 2 f_equal. lia.
Qed.

Lemma zn_repeat : forall n v i, 0 <= i < Z.of_nat n -> zn (repeat v n) i = v.
Proof.
  intros. unfold zn. apply (@repeat_spec Z n v).
  apply nth_In. rewrite repeat_length. lia.
Qed.

Lemma zn_repeat0 : forall n i, zn (repeat 0 n) i = 0.
Proof.
  intros. unfold zn. revert n. induction (Z.to_nat i); intros [|m]; simpl; auto.
Qed.

Lemma repeat_lenZ : forall A (v : A) n, lenZ (repeat v n) = Z.of_nat n.
Proof. intros; unfold lenZ; now rewrite repeat_length. Qed.

Lemma list_ext_zn : forall a b, length a = length b ->
  (forall i, 0 <= i < lenZ a -> zn a i = zn b i) -> a = b.
Proof.
  intros a b HL H. apply nth_ext with (d := 0) (d' := 0); auto.
  intros n Hn. specialize (H (Z.of_nat n)). unfold zn, lenZ in H.
  rewrite Nat2Z.id in H. apply H; lia.
Qed.

Lemma zn_map : forall f l i, 0 <= i < lenZ l -> zn (map f l) i = f (zn l i).
Proof.
  intros. unfold zn, lenZ in *.
  rewrite nth_indep with (d' := f 0) by (rewrite map_length; lia). apply map_nth.
Qed.

Lemma zn_In : forall l i, 0 <= i < lenZ l -> In (zn l i) l.
Proof. intros; unfold zn, lenZ in *; apply nth_In; lia. Qed.

Lemma In_zn : forall l x, In x l -> exists i, 0 <= i < lenZ l /\ zn l i = x.
Proof.
  intros l x H. apply In_nth with (d := 0) in H. destruct H as (n & Hn & E).
  exists (Z.of_nat n). unfold zn, lenZ. rewrite Nat2Z.id. split; auto; lia.
Qed.

Lemma foldM_app : forall A S (f : S -> A -> res S) l1 l2 s,
  foldM f (l1 ++ l2) s = bind (foldM f l1 s) (fun s' => foldM f l2 s').
Proof.
  induction l1; intros; simpl; auto. destruct (f s a); simpl; auto.
Qed.

Lemma mapM_vget_ok : forall r l, (forall x, In x l -> 0 <= x < lenZ r) ->
  mapM (fun x => vget r x) l = Ok (map (zn r) l).
Proof.
  induction l; intros; simpl; auto.
  rewrite vget_ok by (apply H; simpl; auto). simpl.
  rewrite IHl by (intros; apply H; simpl; auto). reflexivity.
Qed.

Lemma zprod_app : forall a b, zprod (a ++ b) = zprod a * zprod b.
Proof. induction a; intros; cbn [zprod app]; [destruct (zprod b); auto|]. rewrite IHa; lia. Qed.

Lemma zprod_nonneg : forall l, Forall (fun n => 0 <= n) l -> 0 <= zprod l.
Proof. induction 1; simpl; [lia|]. apply Z.mul_nonneg_nonneg; auto. Qed.

Lemma zprod_pos : forall l, Forall (fun n => 0 < n) l -> 0 < zprod l.
Proof. induction 1; simpl; [lia|]. apply Z.mul_pos_pos; auto. Qed.

Lemma zprod_pos_inv : forall l, Forall (fun n => 0 <= n) l -> 0 < zprod l ->
  Forall (fun n => 0 < n) l.
Proof.
  induction 1; intros; constructor; simpl in *.
  - pose proof (zprod_nonneg _ H0). nia.
  - apply IHForall. pose proof (zprod_nonneg _ H0). nia.
Qed.

Lemma zn_app_l : forall a b i, 0 <= i < lenZ a -> zn (a ++ b) i = zn a i.
Proof. intros; unfold zn, lenZ in *; apply app_nth1; lia. Qed.

Lemma zn_app_r : forall a b i, lenZ a <= i -> zn (a ++ b) i = zn b (i - lenZ a).
Proof.
  intros; unfold zn, lenZ in *. rewrite app_nth2 by lia. f_equal. lia.
Qed.

Lemma NoDup_incl_len : forall (l : list Z) a b, NoDup l -> (forall x, In x l -> a <= x < b) ->
  a <= b -> lenZ l <= b - a.
Proof.
  intros l a b HN HI Hab.
  assert (length l <= length (zrange a b))%nat.
  { apply NoDup_incl_length; auto. intros x Hx. apply zrange_In; auto. }
  rewrite zrange_length in H. unfold lenZ. lia.
Qed.
