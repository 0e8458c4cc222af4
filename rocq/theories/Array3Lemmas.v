(** * Array3Lemmas *)

From Coq Require Import ZArith List Bool Lia.
From Verif Require Import Base BaseLemmas Array3.
Import ListNotations.
Open Scope Z_scope.

Lemma flat3_decode : forall n1 n2 h i j, 0 <= i < n1 -> 0 <= j < n2 ->
  flat3 n1 n2 h i j / (n1 * n2) = h /\ flat3 n1 n2 h i j / n2 mod n1 = i /\ flat3 n1 n2 h i j mod n2 = j.
Proof.
  intros n1 n2 h i j Hi Hj. unfold flat3.
  assert (E2 : ((h * n1 + i) * n2 + j) / n2 = h * n1 + i) by (rewrite Z.div_add_l by lia; rewrite Z.div_small by lia; lia).
  split; [|split].
  - rewrite (Z.mul_comm n1 n2), <- Z.div_div by lia. rewrite E2.
    rewrite Z.div_add_l by lia. rewrite Z.div_small by lia. lia.
  - rewrite E2. rewrite Z.add_comm, Z.mod_add by lia. apply Z.mod_small; lia.
  - rewrite Z.add_comm, Z.mod_add by lia. apply Z.mod_small; lia.
Qed.

Lemma flat3_range : forall n0 n1 n2 h i j, 0 <= h < n0 -> 0 <= i < n1 -> 0 <= j < n2 ->
  0 <= flat3 n1 n2 h i j < n0 * n1 * n2.
Proof.
  intros. unfold flat3. assert (0 <= h * n1 + i) by nia. assert (h * n1 + i + 1 <= n0 * n1) by nia.
  split; [nia|]. assert ((h * n1 + i + 1) * n2 <= n0 * n1 * n2) by (apply Z.mul_le_mono_nonneg_r; lia). lia.
Qed.

Definition inr {A} (a : arr A) (h i j : Z) : Prop := 0 <= h < d0 a /\ 0 <= i < d1 a /\ 0 <= j < d2 a.

Lemma inb_inr : forall A (a : arr A) h i j, inb a h i j = true <-> inr a h i j.
Proof. intros. unfold inb, inr. rewrite !andb_true_iff. lia. Qed.

Lemma inb_false : forall A (a : arr A) h i j, inb a h i j = false <-> ~ inr a h i j.
Proof. intros. rewrite <- inb_inr. destruct (inb a h i j); split; congruence. Qed.

Lemma at3_tab : forall A (d : A) n0 n1 n2 f h i j, 0 <= h < n0 -> 0 <= i < n1 -> 0 <= j < n2 ->
  at3 d (tab n0 n1 n2 f) h i j = f h i j.
Proof.
  intros A d n0 n1 n2 f h i j Hh Hi Hj. unfold at3, tab. cbn [d1 d2 dat].
  pose proof (flat3_range n0 n1 n2 h i j Hh Hi Hj) as HR.
  destruct (flat3_decode n1 n2 h i j Hi Hj) as (A1 & A2 & A3).
  set (p := flat3 n1 n2 h i j) in *. clearbody p.
  set (g := fun p => f (p / (n1 * n2)) (p / n2 mod n1) (p mod n2)).
  rewrite nth_indep with (d' := g 0).
  - rewrite map_nth. rewrite zseq_nth by lia. unfold g. replace (0 + Z.of_nat (Z.to_nat p)) with p by lia.
    now rewrite A1, A2, A3.
  - rewrite map_length, zseq_length. lia.
Qed.

Definition wfa {A} (a : arr A) : Prop :=
  0 <= d0 a /\ 0 <= d1 a /\ 0 <= d2 a /\ lenZ (dat a) = d0 a * d1 a * d2 a.

Lemma tab_wfa : forall A n0 n1 n2 (f : Z -> Z -> Z -> A), 0 <= n0 -> 0 <= n1 -> 0 <= n2 -> wfa (tab n0 n1 n2 f).
Proof.
  intros. unfold wfa, tab, lenZ. cbn [d0 d1 d2 dat]. split; [lia|]. split; [lia|]. split; [lia|]. rewrite map_length, zseq_length. nia.
Qed.

Lemma aget_ok : forall A (d : A) a h i j, wfa a -> inr a h i j -> aget a h i j = Ok (at3 d a h i j).
Proof.
  intros A d a h i j (W0 & W1 & W2 & WL) HI. unfold aget. pose proof HI as HI'. apply inb_inr in HI. rewrite HI.
  destruct HI' as (Hh & Hi & Hj). pose proof (flat3_range _ _ _ h i j Hh Hi Hj). unfold vget, at3.
  replace (flat3 (d1 a) (d2 a) h i j <? 0) with false by lia.
  rewrite (nth_error_nth' _ d) by (unfold lenZ in WL; lia). reflexivity.
Qed.

Lemma loop3_In : forall h0 h1 i0 i1 j0 j1 h i j,
  In (h, i, j) (loop3 h0 h1 i0 i1 j0 j1) <-> h0 <= h < h1 /\ i0 <= i < i1 /\ j0 <= j < j1.
Proof.
  intros. unfold loop3. rewrite in_flat_map. split.
  - intros (h' & Hh & H). apply in_flat_map in H. destruct H as (i' & Hi & H). apply in_map_iff in H.
    destruct H as (j' & E & Hj). injection E as -> -> ->. rewrite zrange_In in *. auto.
  - intros (Hh & Hi & Hj). exists h. rewrite zrange_In. split; auto. apply in_flat_map. exists i.
    rewrite zrange_In. split; auto. apply in_map_iff. exists j. rewrite zrange_In. auto.
Qed.

Lemma pad_axis_eq : forall n, 1 <= n < 2 ^ 62 -> pad_axis n = ((n - 1) / 2, n / 2).
Proof.
  intros n H. unfold pad_axis. destruct (n mod 2 =? 0) eqn:E.
  - assert (E0 : n / 2 - 1 = (n - 1) / 2) by (Z.to_euclidean_division_equations; lia). rewrite E0. rewrite Z.mod_small; auto.
    change (2 ^ 62) with 4611686018427387904 in H. Z.to_euclidean_division_equations; lia.
  - f_equal; Z.to_euclidean_division_equations; lia.
Qed.

Lemma amax_ok : forall l, l <> [] -> exists m, amax l = Ok m /\ In m l /\ forall x, In x l -> x <= m.
Proof.
  intros [|x t] H; [congruence|]. cbn [amax]. eexists. split; [reflexivity|]. clear H.
  revert x. induction t as [|y t IH]; intros x; cbn [fold_left].
  - split; [simpl; auto|]. intros z [->|[]]. lia.
  - destruct (IH (Z.max x y)) as [A B]. split.
    + destruct A as [A|A]; [|simpl; auto]. rewrite <- A. destruct (Z.max_spec x y) as [[_ ->]|[_ ->]]; simpl; auto.
    + intros z [<-|[<-|Hz]].
      * specialize (B (Z.max x y) (or_introl eq_refl)). lia.
      * specialize (B (Z.max x y) (or_introl eq_refl)). lia.
      * apply B. simpl; auto.
Qed.
