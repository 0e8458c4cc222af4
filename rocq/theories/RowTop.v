(** * RowTop: proofs of C151 *)

From Coq Require Import ZArith List Bool Lia.
From Verif Require Import Base BaseLemmas Cluster SpecCluster ClusterAbs ClusterTop SpecRow.
Import ListNotations.
Open Scope Z_scope.

Lemma stretches_S : forall img p, 0 <= p -> stretches img p = stretches img (p - 1) + (if begins img p then 1 else 0).
Proof.
  intros img p H. unfold stretches. replace (p - 1 + 1) with p by lia.
  rewrite (zrange_S 0 p) by lia. rewrite filter_app. unfold lenZ. rewrite app_length, Nat2Z.inj_add. f_equal.
  cbn [filter]. destruct (begins img p); reflexivity.
Qed.

Lemma stretches_before : forall img, stretches img (-1) = 0.
Proof. intros. unfold stretches. rewrite zrange_nil by lia. reflexivity. Qed.

Lemma stretches_nonneg : forall img p, 0 <= stretches img p.
Proof. intros. unfold stretches, lenZ. lia. Qed.

(** Monotone. *)
Lemma stretches_mono : forall img p q, -1 <= p <= q -> stretches img p <= stretches img q.
Proof.
  intros img p q [Hp Hq]. replace q with (p + Z.of_nat (Z.to_nat (q - p))) by lia.
  generalize (Z.to_nat (q - p)). intro k. induction k as [|k IH].
  - rewrite Z.add_0_r. lia.
  - rewrite (stretches_S img (p + Z.of_nat (S k))) by lia. replace (p + Z.of_nat (S k) - 1) with (p + Z.of_nat k) by lia.
    destruct (begins img (p + Z.of_nat (S k))); lia.
Qed.

Lemma begins_true : forall img x, begins img x = true <-> zn img x <> 0 /\ (x = 0 \/ zn img (x - 1) = 0).
Proof.
  intros. unfold begins. rewrite andb_true_iff, orb_true_iff, negb_true_iff, Z.eqb_neq, !Z.eqb_eq. tauto.
Qed.

(** Within a stretch the number stays the same. *)
Lemma stretches_within : forall img p q, 0 <= p <= q -> (forall x, p <= x <= q -> zn img x <> 0) -> stretches img q = stretches img p.
Proof.
  intros img p q [Hp Hq]. replace q with (p + Z.of_nat (Z.to_nat (q - p))) by lia.
  generalize (Z.to_nat (q - p)). intro k. induction k as [|k IH]; intro HF.
  - rewrite Z.add_0_r. reflexivity.
  - rewrite (stretches_S img (p + Z.of_nat (S k))) by lia. replace (p + Z.of_nat (S k) - 1) with (p + Z.of_nat k) by lia.
    destruct (begins img (p + Z.of_nat (S k))) eqn:B.
    + apply begins_true in B. destruct B as [_ [B|B]]; [lia|].
      exfalso. apply (HF (p + Z.of_nat (S k) - 1)); [lia|exact B].
    + rewrite IH; [lia|]. intros. apply HF. lia.
Qed.

(** The same number: nothing but foreground in between. *)
Lemma stretches_same : forall img p q, 0 <= p <= q -> zn img p <> 0 -> zn img q <> 0 -> stretches img q = stretches img p ->
  forall x, p <= x <= q -> zn img x <> 0.
Proof.
  intros img p q [Hp Hq]. replace q with (p + Z.of_nat (Z.to_nat (q - p))) by lia.
  generalize (Z.to_nat (q - p)). intro k. induction k as [|k IH]; intros Fp Fq E x Hx.
  - replace x with p by lia. exact Fp.
  - rewrite (stretches_S img (p + Z.of_nat (S k))) in E by lia. replace (p + Z.of_nat (S k) - 1) with (p + Z.of_nat k) in E by lia.
    assert (M := stretches_mono img p (p + Z.of_nat k) ltac:(lia)).
    destruct (begins img (p + Z.of_nat (S k))) eqn:B; [lia|].
    assert (Fk : zn img (p + Z.of_nat k) <> 0).
    { intro Z0. assert (T : begins img (p + Z.of_nat (S k)) = true); [|congruence].
      apply begins_true. split; [exact Fq|]. right. replace (p + Z.of_nat (S k) - 1) with (p + Z.of_nat k) by lia. exact Z0. }
    destruct (Z.eq_dec x (p + Z.of_nat (S k))) as [->|N]; [exact Fq|]. apply IH; auto; lia.
Qed.

(** A foreground pixel is in a stretch. *)
Lemma stretches_pos : forall img p, 0 <= p -> zn img p <> 0 -> 1 <= stretches img p.
Proof.
  intros img p Hp. replace p with (Z.of_nat (Z.to_nat p)) by lia. generalize (Z.to_nat p). intro k. induction k as [|k IH]; intro F.
  - rewrite stretches_S by lia. assert (B : begins img (Z.of_nat 0) = true) by (apply begins_true; split; [exact F|left; reflexivity]).
    rewrite B. assert (N := stretches_nonneg img (Z.of_nat 0 - 1)). lia.
  - rewrite stretches_S by lia. replace (Z.of_nat (S k) - 1) with (Z.of_nat k) by lia.
    destruct (begins img (Z.of_nat (S k))) eqn:B; [assert (N := stretches_nonneg img (Z.of_nat k)); lia|].
    assert (Fk : zn img (Z.of_nat k) <> 0).
    { intro Z0. assert (T : begins img (Z.of_nat (S k)) = true); [|congruence].
      apply begins_true. split; [exact F|]. right. replace (Z.of_nat (S k) - 1) with (Z.of_nat k) by lia. exact Z0. }
    specialize (IH Fk). lia.
Qed.

(** Every number up to the last occurs, at the beginning of a stretch. *)
Lemma stretches_onto : forall img q v, 0 <= q -> 1 <= v <= stretches img q ->
  exists p, 0 <= p <= q /\ begins img p = true /\ stretches img p = v.
Proof.
  intros img q v Hq. replace q with (Z.of_nat (Z.to_nat q)) by lia. generalize (Z.to_nat q). intro k. induction k as [|k IH]; intro H.
  - rewrite stretches_S in H by lia. change (Z.of_nat 0 - 1) with (-1) in H. rewrite stretches_before in H.
    destruct (begins img (Z.of_nat 0)) eqn:B; [|lia]. exists (Z.of_nat 0). split; [lia|]. split; [exact B|].
    rewrite stretches_S by lia. change (Z.of_nat 0 - 1) with (-1). rewrite stretches_before, B. lia.
  - assert (E := stretches_S img (Z.of_nat (S k)) ltac:(lia)). replace (Z.of_nat (S k) - 1) with (Z.of_nat k) in E by lia.
    destruct (Z_le_gt_dec v (stretches img (Z.of_nat k))) as [L|G].
    + destruct (IH (conj (proj1 H) L)) as (p & A & B). exists p. split; [lia|exact B].
    + destruct (begins img (Z.of_nat (S k))) eqn:B; [|lia].
      exists (Z.of_nat (S k)). split; [lia|]. split; [exact B|lia].
Qed.

(** ** The labels of a row *)

Section Row.
Variables (per : bool) (img : list Z).
Let n := lenZ img.
Let wraps := per && negb (zn img 0 =? 0) && negb (zn img (n - 1) =? 0).

Lemma end_spec : forall p, to_the_end img p = true <-> forall x, p <= x < n -> zn img x <> 0.
Proof.
  intro p. unfold to_the_end. rewrite forallb_forall. split; intros H x.
  - intro Hx. specialize (H x (proj2 (zrange_In p n x) Hx)). apply negb_true_iff, Z.eqb_neq in H. exact H.
  - intro Hx. apply zrange_In in Hx. apply negb_true_iff, Z.eqb_neq. apply H. exact Hx.
Qed.

(** The label of a foreground pixel. *)
Lemma label_cases : forall p, 0 <= p < n -> zn img p <> 0 ->
  row_label per img p = (if wraps && (stretches img p =? stretches img (n - 1)) then 1 else stretches img p).
Proof.
  intros p Hp F. unfold row_label. destruct (Z.eqb_spec (zn img p) 0) as [|_]; [contradiction|].
  unfold wraps. destruct per; [|reflexivity]. cbn [andb].
  destruct (Z.eqb_spec (zn img 0) 0) as [|F0]; [reflexivity|]. cbn [negb andb].
  destruct (Z.eqb_spec (zn img (n - 1)) 0) as [Z1|F1]; cbn [negb andb].
  - destruct (to_the_end img p) eqn:T; [|reflexivity]. exfalso. apply (proj1 (end_spec p) T (n - 1)); [lia|exact Z1].
  - destruct (Z.eqb_spec (stretches img p) (stretches img (n - 1))) as [E|N].
    + assert (T : to_the_end img p = true).
      { apply end_spec. intros x Hx. apply (stretches_same img p (n - 1) ltac:(lia) F F1 (eq_sym E)). lia. }
      rewrite T. reflexivity.
    + destruct (to_the_end img p) eqn:T; [|reflexivity]. exfalso. apply N. symmetry.
      apply stretches_within; [lia|]. intros x Hx. apply (proj1 (end_spec p) T). lia.
Qed.

Lemma label_pos : forall p, 0 <= p < n -> zn img p <> 0 -> 1 <= row_label per img p.
Proof.
  intros p Hp F. rewrite label_cases by auto. destruct (wraps && (stretches img p =? stretches img (n - 1))). { apply Z.le_refl. } apply stretches_pos; [exact (proj1 Hp)|exact F].
Qed.

Lemma label_zero : forall p, 0 <= p < n -> (row_label per img p = 0 <-> zn img p = 0).
Proof.
  intros p Hp. split; intro H.
  - destruct (Z.eq_dec (zn img p) 0) as [|N]; [assumption|]. assert (L := label_pos p Hp N). lia.
  - unfold row_label. rewrite H. reflexivity.
Qed.

Let A (x : Z) : Prop := pixel [n] x /\ zn img x <> 0.
Let adj := face_neighbour per [n].

Lemma row_pixel : forall x, pixel [n] x <-> 0 <= x < n.
Proof. intro x. unfold pixel. cbn [zprod fold_right]. rewrite Z.mul_1_r. tauto. Qed.

Lemma row_adj : forall x y, adj x y <-> (0 <= x < n /\ 0 <= y < n /\ if per then y = (x + 1) mod n \/ y = (x - 1) mod n else y = x + 1 \/ y = x - 1).
Proof.
  intros x y. unfold adj, face_neighbour. rewrite !row_pixel. cbn [coords zprod fold_right face]. rewrite !Z.div_1_r.
  split.
  - intros (Hx & Hy & [[_ []]|[H _]]). auto.
  - intros (Hx & Hy & H). split; [exact Hx|]. split; [exact Hy|]. right. split; [exact H|reflexivity].
Qed.

Lemma step_right : forall x, 0 <= x -> x + 1 < n -> adj x (x + 1) /\ adj (x + 1) x.
Proof.
  intros x H0 H1. rewrite !row_adj. split; (split; [lia|split; [lia|]]); destruct per.
  - left. rewrite Z.mod_small; lia.
  - left. reflexivity.
  - right. rewrite Z.mod_small; lia.
  - right. lia.
Qed.

Lemma walk_right : forall p q, 0 <= p <= q -> q < n -> (forall x, p <= x <= q -> zn img x <> 0) -> linked adj A p q /\ linked adj A q p.
Proof.
  intros p q [Hp Hq]. replace q with (p + Z.of_nat (Z.to_nat (q - p))) by lia.
  generalize (Z.to_nat (q - p)). intro k. induction k as [|k IH]; intros Hn F.
  - rewrite Z.add_0_r. assert (Ap : A p) by (split; [apply row_pixel; lia|apply F; lia]). split; apply linked_refl; exact Ap.
  - destruct IH as [R L]; [lia|intros; apply F; lia|].
    assert (A0 : A (p + Z.of_nat k)) by (split; [apply row_pixel; lia|apply F; lia]).
    assert (A1 : A (p + Z.of_nat (S k))) by (split; [apply row_pixel; lia|apply F; lia]).
    destruct (step_right (p + Z.of_nat k) ltac:(lia) ltac:(lia)) as [S1 S2].
    replace (p + Z.of_nat k + 1) with (p + Z.of_nat (S k)) in * by lia.
    split.
    + apply (linked_trans _ _ _ _ _ R). apply (linked_step _ _ _ _ _ A0 S1). apply linked_refl. exact A1.
    + apply (linked_step _ _ _ _ _ A1 S2). exact L.
Qed.

Lemma same_linked : forall p q, 0 <= p < n -> 0 <= q < n -> zn img p <> 0 -> zn img q <> 0 ->
  stretches img p = stretches img q -> linked adj A p q.
Proof.
  intros p q Hp Hq Fp Fq E. destruct (Z_le_gt_dec p q) as [L|G].
  - refine (proj1 (walk_right p q _ _ _)); [lia|lia|]. exact (stretches_same img p q ltac:(lia) Fp Fq (eq_sym E)).
  - refine (proj2 (walk_right q p _ _ _)); [lia|lia|]. exact (stretches_same img q p ltac:(lia) Fq Fp E).
Qed.

Lemma wraps_true : wraps = true <-> per = true /\ zn img 0 <> 0 /\ zn img (n - 1) <> 0.
Proof. unfold wraps. rewrite !andb_true_iff, !negb_true_iff, !Z.eqb_neq. tauto. Qed.

Lemma first_one : zn img 0 <> 0 -> stretches img 0 = 1.
Proof.
  intro F. rewrite stretches_S by lia. change (0 - 1) with (-1). rewrite stretches_before.
  assert (B : begins img 0 = true) by (apply begins_true; auto). rewrite B. lia.
Qed.

Lemma around : wraps = true -> 0 < n -> linked adj A (n - 1) 0 /\ linked adj A 0 (n - 1).
Proof.
  intros W Hn. apply wraps_true in W. destruct W as (P & F0 & F1).
  assert (A0 : A 0) by (split; [apply row_pixel; lia|exact F0]). assert (A1 : A (n - 1)) by (split; [apply row_pixel; lia|exact F1]).
  split; [apply (linked_step _ _ _ 0 _ A1)|apply (linked_step _ _ _ (n - 1) _ A0)]; try (apply linked_refl; assumption); apply row_adj; (split; [lia|split; [lia|]]); rewrite P.
  - left. replace (n - 1 + 1) with n by lia. rewrite Z.mod_same; lia.
  - right. rewrite <- (Z.mod_add (0 - 1) 1 n) by lia. rewrite Z.mod_small; lia.
Qed.

Lemma label_linked : forall p q, 0 <= p < n -> 0 <= q < n -> zn img p <> 0 -> zn img q <> 0 ->
  row_label per img p = row_label per img q -> linked adj A p q.
Proof.
  intros p q Hp Hq Fp Fq E. rewrite !label_cases in E by auto.
  destruct wraps eqn:W; cbn [andb] in E; [|apply same_linked; auto].
  destruct (around W ltac:(lia)) as [R0 R1]. assert (W' := W). apply wraps_true in W'. destruct W' as (P & F0 & F1).
  assert (O := first_one F0).
  destruct (Z.eqb_spec (stretches img p) (stretches img (n - 1))) as [Ep|Np]; destruct (Z.eqb_spec (stretches img q) (stretches img (n - 1))) as [Eq|Nq].
  - apply same_linked; auto; congruence.
  - apply (linked_trans _ _ p (n - 1) q); [apply same_linked; auto; lia|]. apply (linked_trans _ _ _ 0 _ R0).
    apply same_linked; auto; lia.
  - apply (linked_trans _ _ p 0 q); [apply same_linked; auto; lia|]. apply (linked_trans _ _ _ (n - 1) _ R1).
    apply same_linked; auto; lia.
  - apply same_linked; auto.
Qed.

(** Neighbours carry the same label. *)
Lemma label_next : forall x, 0 <= x -> x + 1 < n -> zn img x <> 0 -> zn img (x + 1) <> 0 -> row_label per img x = row_label per img (x + 1).
Proof.
  intros x H0 H1 F0 F1. rewrite !label_cases by (auto; lia).
  assert (E : stretches img (x + 1) = stretches img x).
  { apply stretches_within; [lia|]. intros y Hy. assert (D : y = x \/ y = x + 1) by lia. destruct D as [-> | ->]; assumption. }
  rewrite E. reflexivity.
Qed.

Lemma label_around : per = true -> 0 < n -> zn img 0 <> 0 -> zn img (n - 1) <> 0 -> row_label per img 0 = row_label per img (n - 1).
Proof.
  intros P Hn F0 F1. assert (W : wraps = true) by (apply wraps_true; auto). rewrite !label_cases by (auto; lia). rewrite W. cbn [andb].
  rewrite Z.eqb_refl. rewrite first_one by exact F0. destruct (1 =? stretches img (n - 1)); reflexivity.
Qed.

Lemma label_adj : forall x y, A x -> A y -> adj x y -> row_label per img x = row_label per img y.
Proof.
  intros x y [Px Fx] [Py Fy] H. apply row_adj in H. destruct H as (Hx & Hy & H).
  assert (D : (y = x + 1 \/ x = y + 1) \/ (per = true /\ ((x = n - 1 /\ y = 0) \/ (x = 0 /\ y = n - 1)))).
  { destruct per; [|lia]. destruct H as [H|H].
    - destruct (Z.eq_dec (x + 1) n) as [E|N]; [rewrite E, Z.mod_same in H by lia; right; split; [reflexivity|left; lia]|].
      rewrite Z.mod_small in H by lia. lia.
    - destruct (Z.eq_dec x 0) as [E|N].
      + right. split; [reflexivity|]. right. split; [exact E|]. rewrite H, E. rewrite <- (Z.mod_add (0 - 1) 1 n) by lia. rewrite Z.mod_small; lia.
      + rewrite Z.mod_small in H by lia. lia. }
  destruct D as [[-> | ->]|[P [[-> ->]|[-> ->]]]].
  - apply label_next; auto; lia.
  - symmetry. apply label_next; auto; lia.
  - symmetry. apply label_around; auto; lia.
  - apply label_around; auto; lia.
Qed.

Lemma linked_label : forall p q, linked adj A p q -> row_label per img p = row_label per img q.
Proof.
  intros p q L. induction L as [p Ap|p q r Ap H L IH]; [reflexivity|].
  rewrite <- IH. apply label_adj; auto. exact (linked_src _ _ _ _ L).
Qed.

(** ** The list of labels *)

Definition row_labels : list Z := map (row_label per img) (zrange 0 n).

Lemma row_labels_len : lenZ row_labels = n.
Proof. unfold row_labels, lenZ. rewrite map_length, zrange_length. unfold n, lenZ. lia. Qed.

Lemma row_labels_at : forall p, 0 <= p < n -> zn row_labels p = row_label per img p.
Proof.
  intros p Hp. unfold zn, row_labels. rewrite (nth_indep _ 0 (row_label per img 0)) by (rewrite map_length, zrange_length; lia).
  rewrite map_nth. f_equal. unfold zrange. rewrite zseq_nth by lia. lia.
Qed.
End Row.

(** ** Numbering *)

Lemma label_first : forall per img p f h q, 0 <= p < lenZ img -> 0 <= q < lenZ img -> 0 <= f < lenZ img -> 0 <= h < lenZ img ->
  zn img p <> 0 -> zn img q <> 0 ->
  row_label per img f = row_label per img p -> (forall x, 0 <= x < lenZ img -> row_label per img x = row_label per img p -> f <= x) ->
  row_label per img h = row_label per img q -> (forall x, 0 <= x < lenZ img -> row_label per img x = row_label per img q -> h <= x) ->
  row_label per img p < row_label per img q -> f < h.
Proof.
  intros per img p f h q Hp Hq Hf Hh Fp Fq Ef Lf Eh Lh LT.
  assert (Pp := label_pos per img p Hp Fp).
  assert (Ff : zn img f <> 0) by (intro Z0; apply (label_zero per img f Hf) in Z0; lia).
  assert (Fh : zn img h <> 0) by (intro Z0; apply (label_zero per img h Hh) in Z0; lia).
  rewrite <- Ef, <- Eh in LT. destruct (Z_lt_le_dec f h) as [L|G]; [exact L|exfalso].
  assert (M := stretches_mono img h f ltac:(lia)).
  rewrite (label_cases per img f Hf Ff), (label_cases per img h Hh Fh) in LT.
  assert (S1 := stretches_pos img h ltac:(lia) Fh). 
  destruct (per && negb (zn img 0 =? 0) && negb (zn img (lenZ img - 1) =? 0)) eqn:W; cbn [andb] in LT; [|lia].
  destruct (Z.eqb_spec (stretches img f) (stretches img (lenZ img - 1))) as [E1|N1]; [|destruct (Z.eqb_spec (stretches img h) (stretches img (lenZ img - 1))) as [E2|N2]; lia].
  destruct (Z.eqb_spec (stretches img h) (stretches img (lenZ img - 1))) as [E2|N2]; [lia|].
  (* [f] is in the stretch that goes on at pixel 0: the first of that label is 0 *)
  assert (W0 := W). apply andb_true_iff in W. destruct W as [W W2]. apply andb_true_iff in W. destruct W as [_ W1].
  apply negb_true_iff, Z.eqb_neq in W1. apply negb_true_iff, Z.eqb_neq in W2.
  assert (H0 : row_label per img 0 = row_label per img p).
  { rewrite <- Ef. rewrite (label_cases per img f Hf Ff), (label_cases per img 0 ltac:(lia) W1). rewrite E1, Z.eqb_refl, (first_one img W1), W0.
    cbn [andb]. destruct (1 =? _); reflexivity. }
  specialize (Lf 0 ltac:(lia) H0). assert (f = 0) by lia. subst f. assert (h = 0) by lia. subst h. lia.
Qed.

(** The labels that occur. *)
Definition row_number (per : bool) (img : list Z) : Z :=
  let m := stretches img (lenZ img - 1) in
  if per && negb (zn img 0 =? 0) && negb (zn img (lenZ img - 1) =? 0) then Z.max 1 (m - 1) else m.

Lemma row_numbers : forall per img, 0 < lenZ img ->
  forall v, 1 <= v <= row_number per img <-> v <> 0 /\ exists p, pixel [lenZ img] p /\ zn (row_labels per img) p = v.
Proof.
  intros per img Hn. unfold row_number.
  set (shape := [lenZ img]). set (lab := row_labels per img).
  assert (PX : forall p, pixel shape p <-> 0 <= p < lenZ img) by (intro p; exact (row_pixel per img p)).
  assert (AT : forall p, pixel shape p -> zn lab p = row_label per img p) by (intros p Hp; apply row_labels_at; apply PX; exact Hp).
    set (m := stretches img (lenZ img - 1)).
    set (w := per && negb (zn img 0 =? 0) && negb (zn img (lenZ img - 1) =? 0)).
    cbv zeta. intro v. split.
    + intro Hv. split; [destruct w; lia|]. 
      assert (Hm : 1 <= v <= m).
      { destruct w eqn:W; [|lia]. apply andb_true_iff in W. destruct W as [_ W2]. apply negb_true_iff, Z.eqb_neq in W2.
        assert (S1 := stretches_pos img (lenZ img - 1) ltac:(lia) W2). fold m in S1. lia. }
      destruct (stretches_onto img (lenZ img - 1) v ltac:(lia) Hm) as (p & Hp & B & E).
      exists p. assert (Hp' : pixel shape p) by (apply PX; lia). split; [exact Hp'|]. rewrite AT by exact Hp'.
      apply begins_true in B. destruct B as [F _]. rewrite label_cases by (auto; lia). fold w. fold m. rewrite E.
      destruct w; cbn [andb]; [|reflexivity]. destruct (Z.eqb_spec v m); lia.
    + intros [Hv [p [Hp E]]]. rewrite AT in E by exact Hp. assert (Hp' := Hp). apply PX in Hp'.
      assert (F : zn img p <> 0) by (intro Z0; apply (label_zero per img p Hp') in Z0; lia).
      assert (L := label_pos per img p Hp' F). rewrite label_cases in E, L by auto. fold w in E, L. fold m in E, L.
      assert (M := stretches_mono img p (lenZ img - 1) ltac:(lia)). fold m in M.
      destruct w; cbn [andb] in E, L; [|lia]. destruct (Z.eqb_spec (stretches img p) m); lia.
Qed.

Lemma row_canonical : forall per img,
  let shape := [lenZ img] in let lab := row_labels per img in
  (forall p, pixel shape p -> 0 <= zn lab p) /\
  (exists n, forall v, 1 <= v <= n <-> v <> 0 /\ exists p, pixel shape p /\ zn lab p = v) /\
  (forall p q f h, pixel shape p -> pixel shape q -> zn lab p <> 0 -> zn lab q <> 0 ->
     first_of shape lab f p -> first_of shape lab h q -> (zn lab p < zn lab q <-> f < h)).
Proof.
  intros per img shape lab.
  assert (PX : forall p, pixel shape p <-> 0 <= p < lenZ img) by (intro p; exact (row_pixel per img p)).
  assert (AT : forall p, pixel shape p -> zn lab p = row_label per img p) by (intros p Hp; apply row_labels_at; apply PX; exact Hp).
  assert (NN : forall p, pixel shape p -> 0 <= row_label per img p).
  { intros p Hp. apply PX in Hp. destruct (Z.eq_dec (zn img p) 0) as [E|N].
    - apply (label_zero per img p Hp) in E. lia.
    - assert (L := label_pos per img p Hp N). lia. }
  split; [intros p Hp; rewrite AT by exact Hp; apply NN; exact Hp|]. split.
  - destruct (Z_lt_le_dec 0 (lenZ img)) as [Hn|Hn].
    2:{ exists 0. intro v. split; [lia|]. intros [_ [p [Hp _]]]. apply PX in Hp. lia. }
    exact (ex_intro _ _ (row_numbers per img Hn)).
  - intros p q f h Hp Hq Np Nq (Pf & Ef & Lf) (Ph & Eh & Lh).
    change (zn lab f = zn lab p) in Ef. change (zn lab h = zn lab q) in Eh.
    change (forall x, pixel shape x -> zn lab x = zn lab p -> f <= x) in Lf.
    change (forall x, pixel shape x -> zn lab x = zn lab q -> h <= x) in Lh.
    rewrite !AT in * by assumption.
    assert (Lf' : forall x, 0 <= x < lenZ img -> row_label per img x = row_label per img p -> f <= x).
    { intros x Hx E. apply Lf; [apply PX; exact Hx|]. rewrite AT by (apply PX; exact Hx). exact E. }
    assert (Lh' : forall x, 0 <= x < lenZ img -> row_label per img x = row_label per img q -> h <= x).
    { intros x Hx E. apply Lh; [apply PX; exact Hx|]. rewrite AT by (apply PX; exact Hx). exact E. }
    apply PX in Hp, Hq, Pf, Ph.
    assert (Fp : zn img p <> 0) by (intro Z0; apply (label_zero per img p Hp) in Z0; lia).
    assert (Fq : zn img q <> 0) by (intro Z0; apply (label_zero per img q Hq) in Z0; lia).
    split; intro LT.
    + exact (label_first per img p f h q Hp Hq Pf Ph Fp Fq Ef Lf' Eh Lh' LT).
    + destruct (Z_lt_le_dec (row_label per img p) (row_label per img q)) as [|G]; [assumption|exfalso].
      destruct (Z.eq_dec (row_label per img p) (row_label per img q)) as [E|N].
      * specialize (Lh' f Pf ltac:(congruence)). lia.
      * assert (C := label_first per img q h f p Hq Hp Ph Pf Fq Fp Eh Lh' Ef Lf' ltac:(lia)). lia.
Qed.

Lemma zn_ext_Z : forall a b : list Z, lenZ a = lenZ b -> (forall p, 0 <= p < lenZ a -> zn a p = zn b p) -> a = b.
Proof.
  intros a b HL H. unfold lenZ in *. apply (nth_ext a b 0 0); [lia|]. intros k Hk. specialize (H (Z.of_nat k) ltac:(lia)).
  unfold zn in H. rewrite !Nat2Z.id in H. exact H.
Qed.

Theorem row_clusters : forall asrt per img, lenZ img < big ->
  clusters asrt [lenZ img] img per = Ok (map (row_label per img) (zrange 0 (lenZ img))).
Proof.
  intros asrt per img HB. assert (N := lenZ_nonneg Z img).
  destruct (clusters_ok asrt [lenZ img] img per) as (lab & E & Len & Zero & Part & On & NN & Ord).
  - split; [discriminate|]. split; [constructor; [exact N|constructor]|]. cbn [zprod fold_right]. lia.
  - cbn [length]. lia.
  - cbn [zprod fold_right]. lia.
  - rewrite E. f_equal. change (lab = row_labels per img).
    assert (PX : forall p, pixel [lenZ img] p <-> 0 <= p < lenZ img) by (intro p; exact (row_pixel per img p)).
    assert (LL : lenZ lab = lenZ img) by (rewrite Len; cbn [zprod fold_right]; lia).
    apply zn_ext_Z; [rewrite LL, row_labels_len; reflexivity|]. intros p Hp. rewrite LL in Hp.
    apply (clusters_determined [lenZ img]).
    + intros l [-> | ->]; [split; [exact NN|split; [exact On|exact Ord]]|]. apply row_canonical.
    + intros x Hx. rewrite (Zero x Hx). assert (Hx' := Hx). apply PX in Hx'. rewrite row_labels_at by exact Hx'.
      symmetry. apply label_zero. exact Hx'.
    + intros x y Hx Hy. assert (Hx' := Hx). assert (Hy' := Hy). apply PX in Hx', Hy'. rewrite !row_labels_at by assumption.
      assert (ZX := label_zero per img x Hx'). assert (ZY := label_zero per img y Hy').
      destruct (Z.eq_dec (zn img x) 0) as [E0|N0]; [|destruct (Z.eq_dec (zn img y) 0) as [E1|N1]].
      * rewrite (proj2 (Zero x Hx) E0), (proj2 ZX E0). split; intro Q; symmetry; [apply ZY; apply Zero; auto|apply Zero; auto; apply ZY; auto].
      * rewrite (proj2 (Zero y Hy) E1), (proj2 ZY E1). split; intro Q; [apply ZX; apply Zero; auto|apply Zero; auto; apply ZX; auto].
      * rewrite (Part x y Hx Hy N0 N1). split; [apply linked_label|apply label_linked; auto].
    + apply PX. exact Hp.
Qed.

(** ** The number of clusters *)

Definition fgb (img : list Z) (x : Z) : bool := negb (zn img x =? 0).

Lemma fgb_true : forall img x, fgb img x = true <-> zn img x <> 0.
Proof. intros. unfold fgb. rewrite negb_true_iff, Z.eqb_neq. tauto. Qed.

Lemma filter_count_S : forall (f : Z -> bool) b, 0 <= b -> lenZ (filter f (zrange 0 (b + 1))) = lenZ (filter f (zrange 0 b)) + (if f b then 1 else 0).
Proof.
  intros f b H. rewrite (zrange_S 0 b) by lia. rewrite filter_app, lenZ_app. f_equal. cbn [filter]. destruct (f b); reflexivity.
Qed.

(** Stretches are pixels less pairs of neighbours. *)
Lemma stretches_euler : forall img k, stretches img (Z.of_nat k) =
  lenZ (filter (fgb img) (zrange 0 (Z.of_nat k + 1))) - lenZ (filter (fun x => fgb img x && fgb img (x + 1)) (zrange 0 (Z.of_nat k))).
Proof.
  intros img k. induction k as [|k IH].
  - rewrite stretches_S by lia. change (Z.of_nat 0 - 1) with (-1). rewrite stretches_before. change (Z.of_nat 0) with 0.
    rewrite filter_count_S by lia. rewrite !zrange_nil by lia. cbn [filter lenZ length]. unfold begins, fgb. cbn [Z.eqb orb]. rewrite andb_true_r.
    destruct (zn img 0 =? 0); reflexivity.
  - rewrite stretches_S by lia. replace (Z.of_nat (S k) - 1) with (Z.of_nat k) by lia. rewrite IH.
    replace (Z.of_nat (S k)) with (Z.of_nat k + 1) by lia. rewrite (filter_count_S (fgb img) (Z.of_nat k + 1)) by lia.
    rewrite (filter_count_S (fun x => fgb img x && fgb img (x + 1)) (Z.of_nat k)) by lia.
    unfold begins. replace (Z.of_nat k + 1 - 1) with (Z.of_nat k) by lia. fold (fgb img (Z.of_nat k + 1)).
    destruct (Z.eqb_spec (Z.of_nat k + 1) 0) as [B|_]; [lia|]. cbn [orb].
    replace (zn img (Z.of_nat k) =? 0) with (negb (fgb img (Z.of_nat k))) by (unfold fgb; apply negb_involutive).
    destruct (fgb img (Z.of_nat k)), (fgb img (Z.of_nat k + 1)); cbn [andb negb]; lia.
Qed.

Lemma filter_ext_in_len : forall (f g : Z -> bool) l, (forall x, In x l -> f x = g x) -> lenZ (filter f l) = lenZ (filter g l).
Proof. intros f g l H. rewrite (filter_ext_in f g l H). reflexivity. Qed.

Lemma stretches_all : forall img, 0 < lenZ img -> stretches img (lenZ img - 1) = filled img - bonds false img.
Proof.
  intros img Hn. replace (lenZ img - 1) with (Z.of_nat (Z.to_nat (lenZ img - 1))) by lia. rewrite stretches_euler.
  rewrite Z2Nat.id by lia. replace (lenZ img - 1 + 1) with (lenZ img) by lia. unfold filled, bonds. f_equal.
  apply filter_ext_in_len. intros x Hx. apply zrange_In in Hx. unfold fgb. rewrite (Z.mod_small (x + 1)) by lia. reflexivity.
Qed.

Lemma bonds_around : forall img, 0 < lenZ img -> bonds true img = bonds false img + (if fgb img 0 && fgb img (lenZ img - 1) then 1 else 0).
Proof.
  intros img Hn. unfold bonds. replace (zrange 0 (lenZ img)) with (zrange 0 (lenZ img - 1 + 1)) by (f_equal; lia).
  rewrite filter_count_S by lia. f_equal. replace (lenZ img - 1 + 1) with (lenZ img) by lia. rewrite Z.mod_same by lia.
  unfold fgb. rewrite andb_comm. reflexivity.
Qed.

Lemma row_euler : forall per img, 0 < lenZ img -> per = false \/ (exists x, 0 <= x < lenZ img /\ zn img x = 0) ->
  row_number per img = filled img - bonds per img.
Proof.
  intros per img Hn H. unfold row_number. cbv zeta. rewrite stretches_all by exact Hn. destruct per; cbn [andb]; [|reflexivity].
  destruct H as [|(x & Hx & Z0)]; [discriminate|]. rewrite bonds_around by exact Hn. fold (fgb img 0). fold (fgb img (lenZ img - 1)).
  destruct (fgb img 0 && fgb img (lenZ img - 1)) eqn:W; [|lia].
  apply andb_true_iff in W. destruct W as [W1 W2]. apply fgb_true in W1, W2.
  assert (O := first_one img W1). assert (M := stretches_mono img 0 (lenZ img - 1) ltac:(lia)).
  assert (S2 := stretches_all img Hn).
  assert (N : stretches img (lenZ img - 1) <> stretches img 0).
  { intro E. exact (stretches_same img 0 (lenZ img - 1) ltac:(lia) W1 W2 E x ltac:(lia) Z0). }
  lia.
Qed.

Theorem row_count : forall asrt per img, lenZ img < big -> per = false \/ (exists v, In v img /\ v = 0) ->
  exists lab, clusters asrt [lenZ img] img per = Ok lab /\
    forall v, 1 <= v <= filled img - bonds per img <-> v <> 0 /\ In v lab.
Proof.
  intros asrt per img HB H. exists (row_labels per img). split; [exact (row_clusters asrt per img HB)|].
  assert (N := lenZ_nonneg Z img). destruct (Z.eq_dec (lenZ img) 0) as [E|NE].
  - intro v. unfold filled, bonds, row_labels. rewrite E. rewrite (zrange_nil 0 0) by lia.
    replace (zrange 0 (if per then 0 else 0 - 1)) with (@nil Z) by (destruct per; symmetry; apply zrange_nil; lia).
    cbn. split; [lia|tauto].
  - assert (Hn : 0 < lenZ img) by lia. rewrite <- (row_euler per img Hn).
    + intro v. rewrite (row_numbers per img Hn v). split; intros [Hv Hx]; (split; [exact Hv|]).
      * destruct Hx as (p & Hp & E). apply row_pixel in Hp; [|exact per]. rewrite <- E. unfold zn. apply nth_In.
        assert (L := row_labels_len per img). unfold lenZ in *. lia.
      * apply (In_nth _ _ 0) in Hx. destruct Hx as (k & Hk & E). exists (Z.of_nat k). split.
        -- apply row_pixel; [exact per|]. assert (L := row_labels_len per img). unfold lenZ in *. lia.
        -- unfold zn. rewrite Nat2Z.id. exact E.
    + destruct H as [H|(v & Hv & Z0)]; [left; exact H|right]. apply (In_nth _ _ 0) in Hv. destruct Hv as (k & Hk & E).
      exists (Z.of_nat k). split; [unfold lenZ; lia|]. unfold zn. rewrite Nat2Z.id. congruence.
Qed.
