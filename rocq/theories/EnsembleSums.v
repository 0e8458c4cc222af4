(** * EnsembleSums: sums over lists and over pairs of pixels (proofs only). *)

From Coq Require Import ZArith QArith Qcanon List Bool Lia Permutation.
From Verif Require Import Base BaseLemmas SpecCluster Array3 Array3Lemmas Path SpecPath SpecDilate DilateTop Ensemble SpecEnsemble.
Import ListNotations.
Open Scope Z_scope.

(** ** Canonical rationals *)

Lemma zq_plus : forall a b, zq (a + b) = (zq a + zq b)%Qc.
Proof. intros. unfold zq. apply Qc_is_canon. cbn [this Q2Qc Qcplus]. rewrite !Qred_correct, inject_Z_plus. reflexivity. Qed.

Lemma zq_mult : forall a b, zq (a * b) = (zq a * zq b)%Qc.
Proof. intros. unfold zq. apply Qc_is_canon. cbn [this Q2Qc Qcmult]. rewrite !Qred_correct, inject_Z_mult. reflexivity. Qed.

Lemma zq_opp : forall a, zq (- a) = (- zq a)%Qc.
Proof. intros. unfold zq. apply Qc_is_canon. cbn [this Q2Qc Qcopp]. rewrite !Qred_correct, inject_Z_opp. reflexivity. Qed.

Lemma zq_sub : forall a b, zq (a - b) = (zq a - zq b)%Qc.
Proof. intros. unfold Z.sub. rewrite zq_plus, zq_opp. reflexivity. Qed.

Lemma zq_0 : zq 0 = 0%Qc. Proof. apply Qc_is_canon. reflexivity. Qed.
Lemma zq_1 : zq 1 = 1%Qc. Proof. apply Qc_is_canon. reflexivity. Qed.

Lemma zq_this : forall a, (this (zq a) == inject_Z a)%Q.
Proof. intros. unfold zq. cbn [this Q2Qc]. apply Qred_correct. Qed.

Lemma zq_le : forall a b, a <= b -> (zq a <= zq b)%Qc.
Proof. intros. unfold Qcle. rewrite !zq_this. rewrite <- Zle_Qle. auto. Qed.

Lemma zq_lt : forall a b, a < b -> (zq a < zq b)%Qc.
Proof. intros. unfold Qclt. rewrite !zq_this. rewrite <- Zlt_Qlt. auto. Qed.

Lemma zq_inj : forall a b, zq a = zq b -> a = b.
Proof.
  intros a b H. destruct (Z.lt_trichotomy a b) as [L|[E|L]]; auto; apply zq_lt in L; rewrite H in L; exfalso; exact (Qclt_not_eq _ _ L eq_refl).
Qed.

Lemma Qceq_b_iff : forall a b, Qceq_b a b = true <-> a = b.
Proof.
  intros. unfold Qceq_b. rewrite Qeq_bool_iff. split; [apply Qc_is_canon|intros ->; reflexivity].
Qed.

Lemma Qclt_b_iff : forall a b, Qclt_b a b = true <-> (a < b)%Qc.
Proof.
  intros. unfold Qclt_b, Qclt. rewrite negb_true_iff. split; intros H.
  - apply Qnot_le_lt. intros L. rewrite <- Qle_bool_iff in L. congruence.
  - destruct (Qle_bool b a) eqn:E; [|reflexivity]. rewrite Qle_bool_iff in E. apply Qle_not_lt in E. contradiction.
Qed.

(** ** Sums *)

Lemma sum_app : forall A (l l' : list A) F, sum_over (l ++ l') F = (sum_over l F + sum_over l' F)%Qc.
Proof. induction l as [|x l IH]; intros; [simpl; ring|]. cbn [app sum_over fold_right]. fold (sum_over (l ++ l') F). rewrite IH. unfold sum_over. ring. Qed.

Lemma sum_cons : forall A (x : A) l F, sum_over (x :: l) F = (F x + sum_over l F)%Qc.
Proof. reflexivity. Qed.

Lemma sum_ext : forall A (l : list A) F G, (forall x, In x l -> F x = G x) -> sum_over l F = sum_over l G.
Proof.
  induction l as [|x l IH]; intros F G H; [reflexivity|]. rewrite !sum_cons, (H x), (IH F G); simpl; auto. intros; apply H; simpl; auto.
Qed.

Lemma sum_zero : forall A (l : list A), sum_over l (fun _ => 0%Qc) = 0%Qc.
Proof. induction l as [|x l IH]; [reflexivity|]. rewrite sum_cons, IH. ring. Qed.

Lemma sum_plus : forall A (l : list A) F G, sum_over l (fun x => F x + G x)%Qc = (sum_over l F + sum_over l G)%Qc.
Proof. induction l as [|x l IH]; intros; [simpl; ring|]. rewrite !sum_cons, IH. ring. Qed.

Lemma sum_scale : forall A (l : list A) F c, sum_over l (fun x => c * F x)%Qc = (c * sum_over l F)%Qc.
Proof. induction l as [|x l IH]; intros; [simpl; ring|]. rewrite !sum_cons, IH. ring. Qed.

Lemma sum_map : forall A B (g : A -> B) l F, sum_over (map g l) F = sum_over l (fun x => F (g x)).
Proof. induction l as [|x l IH]; intros; [reflexivity|]. cbn [map]. rewrite !sum_cons, IH. reflexivity. Qed.

Lemma sum_filter : forall A (b : A -> bool) l F, sum_over (filter b l) F = sum_over l (fun x => if b x then F x else 0%Qc).
Proof. induction l as [|x l IH]; intros; [reflexivity|]. cbn [filter]. rewrite sum_cons, <- IH. destruct (b x); [reflexivity|ring]. Qed.

Lemma sum_one : forall A (l : list A), sum_over l (fun _ => 1%Qc) = zq (lenZ l).
Proof. induction l as [|x l IH]; [symmetry; apply zq_0|]. rewrite sum_cons, lenZ_cons, zq_plus, zq_1, IH. reflexivity. Qed.

Lemma sum_prod : forall A B (l : list A) (l' : list B) F,
  sum_over (list_prod l l') F = sum_over l (fun x => sum_over l' (fun y => F (x, y))).
Proof.
  induction l as [|x l IH]; intros; [reflexivity|]. cbn [list_prod]. rewrite sum_app, sum_map, IH, sum_cons. reflexivity.
Qed.

Lemma sum_perm : forall A (l l' : list A) F, Permutation l l' -> sum_over l F = sum_over l' F.
Proof. intros A l l' F H. induction H; rewrite ?sum_cons; [reflexivity|rewrite IHPermutation; ring|ring|congruence]. Qed.

Lemma sum_swap : forall A B (l : list A) (l' : list B) F,
  sum_over l (fun x => sum_over l' (fun y => F x y)) = sum_over l' (fun y => sum_over l (fun x => F x y)).
Proof.
  induction l as [|x l IH]; intros; [symmetry; apply sum_zero|]. rewrite sum_cons, IH, <- sum_plus. reflexivity.
Qed.

Lemma Qc_add_le : forall a b c d, (a <= b)%Qc -> (c <= d)%Qc -> (a + c <= b + d)%Qc.
Proof. apply Qcplus_le_compat. Qed.

Lemma sum_le : forall A (l : list A) F G, (forall x, In x l -> (F x <= G x)%Qc) -> (sum_over l F <= sum_over l G)%Qc.
Proof.
  induction l as [|x l IH]; intros F G H; [apply Qcle_refl|]. rewrite !sum_cons. apply Qcplus_le_compat; [apply H; simpl; auto|].
  apply IH. intros; apply H; simpl; auto.
Qed.

Lemma sum_nonneg : forall A (l : list A) F, (forall x, In x l -> (0 <= F x)%Qc) -> (0 <= sum_over l F)%Qc.
Proof. intros. rewrite <- (sum_zero _ l). apply sum_le. auto. Qed.

(** A sum with at most one term. *)
Lemma sum_single : forall (l : list Z) (b : Z -> bool) (F : Z -> Qc) x0, NoDup l -> In x0 l ->
  (forall x, In x l -> (b x = true <-> x = x0)) -> sum_over l (fun x => if b x then F x else 0%Qc) = F x0.
Proof.
  induction l as [|y l IH]; intros b F x0 HN HI Hb; [destruct HI|]. inversion HN as [|? ? N1 N2]; subst. rewrite sum_cons.
  destruct HI as [->|HI].
  - assert (E : b x0 = true) by (apply Hb; simpl; auto). rewrite E.
    rewrite (sum_ext _ l _ (fun _ => 0%Qc)); [rewrite sum_zero; ring|].
    intros x Hx. destruct (b x) eqn:E'; auto. apply Hb in E'; [subst; contradiction|simpl; auto].
  - assert (E : b y = false).
    { destruct (b y) eqn:E; auto. apply Hb in E; [subst; contradiction|simpl; auto]. }
    rewrite E, (IH b F x0); auto; [ring|]. intros; apply Hb; simpl; auto.
Qed.

Lemma sum_none : forall A (l : list A) (b : A -> bool) (F : A -> Qc), (forall x, In x l -> b x = false) ->
  sum_over l (fun x => if b x then F x else 0%Qc) = 0%Qc.
Proof. intros. rewrite (sum_ext _ l _ (fun _ => 0%Qc)); [apply sum_zero|]. intros x Hx. rewrite H; auto. Qed.

(** ** The three nested loops visit all positions in row-major order *)

Definition dec (n1 n2 p : Z) : Z * Z * Z := (p / (n1 * n2), p / n2 mod n1, p mod n2).

Lemma map_add_zrange : forall b n, 0 <= n -> map (fun j => b + j) (zrange 0 n) = zrange b (b + n).
Proof.
  intros b n Hn. unfold zrange. replace (b + n - b) with n by lia. rewrite Z.sub_0_r.
  assert (G : forall m a, map (fun j => b + j) (zseq a m) = zseq (b + a) m).
  { induction m as [|m IH]; intros a; [reflexivity|]. cbn [zseq map]. rewrite IH. f_equal. f_equal. lia. }
  rewrite G. f_equal. lia.
Qed.

Lemma map_flat_rows : forall n1 n2 h, 0 <= n1 -> 0 <= n2 ->
  map (fun x => flat3 n1 n2 h (fst x) (snd x)) (flat_map (fun i => map (fun j => (i, j)) (zrange 0 n2)) (zrange 0 n1)) =
  zrange (h * n1 * n2) (h * n1 * n2 + n1 * n2).
Proof.
  intros n1 n2 h H1 H2. revert n1 H1.
  assert (G : forall m n1, 0 <= m -> map (fun x => flat3 n1 n2 h (fst x) (snd x)) (flat_map (fun i => map (fun j => (i, j)) (zrange 0 n2)) (zrange 0 m)) =
    zrange (h * n1 * n2) (h * n1 * n2 + m * n2)).
  { intros m n1 Hm. pattern m. apply natlike_ind; auto.
    - rewrite (zrange_nil 0 0), (zrange_nil (h * n1 * n2)) by lia. reflexivity.
    - intros k Hk IH. unfold Z.succ. rewrite zrange_S by lia. rewrite flat_map_app, map_app, IH. cbn [flat_map]. rewrite app_nil_r, map_map.
      cbn [fst snd]. unfold flat3.
      rewrite (map_ext _ (fun j => (h * n1 * n2 + k * n2) + j)) by (intros; ring). rewrite map_add_zrange by lia.
      rewrite <- zrange_split by nia. f_equal. lia. }
  intros n1 H1. apply G. auto.
Qed.

Lemma map_flat_loop3 : forall n0 n1 n2, 0 <= n0 -> 0 <= n1 -> 0 <= n2 ->
  map (fun x => flat3 n1 n2 (fst (fst x)) (snd (fst x)) (snd x)) (loop3 0 n0 0 n1 0 n2) = zrange 0 (n0 * n1 * n2).
Proof.
  intros n0 n1 n2 H0 H1 H2. unfold loop3. pattern n0. apply natlike_ind; [reflexivity| |auto].
  - intros k Hk IH. unfold Z.succ. rewrite zrange_S by lia. rewrite flat_map_app, map_app, IH. cbn [flat_map]. rewrite app_nil_r.
    assert (E : map (fun x => flat3 n1 n2 (fst (fst x)) (snd (fst x)) (snd x)) (flat_map (fun i => map (fun j => (k, i, j)) (zrange 0 n2)) (zrange 0 n1))
      = map (fun x => flat3 n1 n2 k (fst x) (snd x)) (flat_map (fun i => map (fun j => (i, j)) (zrange 0 n2)) (zrange 0 n1))).
    { generalize (zrange 0 n1). intros l. induction l as [|i l IHl]; [reflexivity|]. cbn [flat_map]. rewrite !map_app, !map_map, IHl. reflexivity. }
    rewrite E, map_flat_rows by auto. replace (k * n1 * n2) with (k * n1 * n2) by ring.
    rewrite <- zrange_split by nia. f_equal. ring.
Qed.

Lemma loop3_dec : forall n0 n1 n2, 0 <= n0 -> 0 <= n1 -> 0 <= n2 ->
  loop3 0 n0 0 n1 0 n2 = map (dec n1 n2) (zrange 0 (n0 * n1 * n2)).
Proof.
  intros n0 n1 n2 H0 H1 H2. rewrite <- map_flat_loop3 by auto. rewrite map_map.
  rewrite <- (map_id (loop3 0 n0 0 n1 0 n2)) at 1. apply map_ext_in. intros [[h i] j] Hx. apply loop3_In in Hx.
  cbn [fst snd]. destruct (flat3_decode n1 n2 h i j) as (A & B & C); try lia. unfold dec. now rewrite A, B, C.
Qed.

Lemma sum_loop3 : forall n0 n1 n2 F, 0 <= n0 -> 0 <= n1 -> 0 <= n2 ->
  sum_over (loop3 0 n0 0 n1 0 n2) F = sum_over (zrange 0 (n0 * n1 * n2)) (fun p => F (dec n1 n2 p)).
Proof. intros. rewrite loop3_dec by auto. apply sum_map. Qed.

Lemma map_zrange_shift : forall A (f : Z -> A) p n, map (fun h => f (p + h)) (zrange 0 n) = map f (zrange p (p + n)).
Proof.
  intros A f p n. destruct (Z_le_gt_dec 0 n).
  - rewrite <- map_add_zrange by auto. rewrite map_map. reflexivity.
  - rewrite !zrange_nil by lia. reflexivity.
Qed.

Lemma flat_map_zrange_shift : forall A (f : Z -> list A) p n, flat_map (fun h => f (p + h)) (zrange 0 n) = flat_map f (zrange p (p + n)).
Proof. intros. rewrite !flat_map_concat_map. f_equal. apply (map_zrange_shift _ f). Qed.

Lemma loop3_shift : forall p0 p1 p2 n0 n1 n2,
  loop3 p0 (p0 + n0) p1 (p1 + n1) p2 (p2 + n2) =
  map (fun x => (p0 + fst (fst x), p1 + snd (fst x), p2 + snd x)) (loop3 0 n0 0 n1 0 n2).
Proof.
  intros. unfold loop3. rewrite <- flat_map_zrange_shift.
  assert (M : forall A B C (g : B -> C) (f : A -> list B) l, map g (flat_map f l) = flat_map (fun x => map g (f x)) l).
  { intros A B C g f l. induction l as [|x l IH]; [reflexivity|]. cbn [flat_map]. rewrite map_app, IH. reflexivity. }
  rewrite M. apply flat_map_ext. intros h. rewrite <- flat_map_zrange_shift, M. apply flat_map_ext. intros i.
  rewrite map_map. rewrite <- map_zrange_shift. reflexivity.
Qed.

(** ** Pairs *)

Lemma movedb_iff : forall per shape a d b, movedb per shape a d b = true <-> moved per shape a d b.
Proof.
  intros per. induction shape as [|n shape IH]; intros [|x a] [|t d] [|y b]; cbn [movedb moved]; try (split; [discriminate|tauto]); try tauto.
  rewrite andb_true_iff, IH. destruct per; rewrite Z.eqb_eq; tauto.
Qed.

Lemma moved_false_diff : forall shape a d b, length a = length shape -> length b = length shape ->
  (moved false shape a d b <-> d = diff b a).
Proof.
  induction shape as [|n shape IH]; intros [|x a] d [|y b] Ha Hb; simpl in Ha, Hb; try discriminate.
  - destruct d; cbn; split; auto; try discriminate; intros [].
  - change (diff (y :: b) (x :: a)) with ((y - x) :: diff b a). destruct d as [|t d]; cbn [moved]; [split; [intros []|discriminate]|].
    rewrite (IH a d b) by lia. split; [intros [E ->]; f_equal; lia|intros E; injection E as -> ->; split; [lia|auto]].
Qed.

Lemma coords_length : forall shape p, length (coords shape p) = length shape.
Proof. induction shape as [|n shape IH]; intros; [reflexivity|]. cbn [coords length]. rewrite IH. reflexivity. Qed.

Lemma anchor_length : forall ks, length (anchor ks) = length ks.
Proof. intros. unfold anchor. apply map_length. Qed.

(** [moved] by the offset of roi element [r], in three dimensions. *)
Lemma moved3 : forall per shape roi n0 n1 n2 k0 k1 k2 p q r, length roi = length shape ->
  shape3 shape = Ok (n0, n1, n2) -> shape3 roi = Ok (k0, k1, k2) ->
  1 <= n0 /\ 1 <= n1 /\ 1 <= n2 -> 1 <= k0 /\ 1 <= k1 /\ 1 <= k2 ->
  0 <= p < n0 * n1 * n2 -> 0 <= q < n0 * n1 * n2 -> 0 <= r < k0 * k1 * k2 ->
  (moved per shape (coords shape p) (offset roi r) (coords shape q) <->
     rel per n0 (p / (n1 * n2)) (r / (k1 * k2) - (k0 - 1) / 2) (q / (n1 * n2)) /\
     rel per n1 (p / n2 mod n1) (r / k2 mod k1 - (k1 - 1) / 2) (q / n2 mod n1) /\
     rel per n2 (p mod n2) (r mod k2 - (k2 - 1) / 2) (q mod n2)).
Proof.
  intros per shape roi n0 n1 n2 k0 k1 k2 p q r HL Hs Hk Pn Pk Hp Hq Hr.
  set (kv := upd (Z.to_nat r) 1 (repeat 0 (Z.to_nat (k0 * k1 * k2)))).
  assert (Hkv : forall r', 0 <= r' < k0 * k1 * k2 -> (zn kv r' = 1 <-> r' = r)).
  { intros r' Hr'. unfold kv. rewrite zn_upd by (try lia; rewrite repeat_lenZ; lia).
    rewrite zn_repeat0. destruct (Z.eqb_spec r r'); split; auto; congruence || discriminate. }
  pose proof (kernel_step3 per shape roi kv n0 n1 n2 k0 k1 k2 p q HL Hs Hk Pn Pk) as K.
  assert (Hoff : forall d, kernel_offset roi kv d <-> d = offset roi r).
  { intros d. unfold kernel_offset, pixel. rewrite (shape3_prod _ _ _ _ Hk). split.
    - intros (r' & Hr' & Hv & M). apply Hkv in Hv; auto. subst r'. apply moved_false_diff in M; auto; [apply anchor_length|apply coords_length].
    - intros ->. exists r. split; auto. split; [apply Hkv; auto|]. apply moved_false_diff; [apply anchor_length|apply coords_length|reflexivity]. }
  unfold kernel_step, pixel in K. rewrite (shape3_prod _ _ _ _ Hs) in K. split.
  - intros M. destruct K as [K _]. destruct K as (_ & _ & r' & Hr' & Hv & R).
    + split; auto. split; auto. exists (offset roi r). split; auto. apply Hoff. auto.
    + apply Hkv in Hv; auto. subst r'. auto.
  - intros R. destruct K as [_ K]. destruct K as (_ & _ & d & Hd & M).
    + split; auto. split; auto. exists r. split; auto. split; auto. apply Hkv; auto.
    + apply Hoff in Hd. subst d. auto.
Qed.

(** The pixel at offset [o] of [p]. *)
Definition partner (per : bool) (n0 n1 n2 o0 o1 o2 : Z) (x : Z * Z * Z) : option Z :=
  let '(h, i, j) := x in
  if per then Some (flat3 n1 n2 ((h + o0) mod n0) ((i + o1) mod n1) ((j + o2) mod n2))
  else if (0 <=? h + o0) && (h + o0 <? n0) && (0 <=? i + o1) && (i + o1 <? n1) && (0 <=? j + o2) && (j + o2 <? n2)
  then Some (flat3 n1 n2 (h + o0) (i + o1) (j + o2))
  else None.

Lemma flat_eq : forall n0 n1 n2 q h i j, 1 <= n1 -> 1 <= n2 -> 0 <= q < n0 * n1 * n2 ->
  0 <= h < n0 -> 0 <= i < n1 -> 0 <= j < n2 ->
  (q = flat3 n1 n2 h i j <-> q / (n1 * n2) = h /\ q / n2 mod n1 = i /\ q mod n2 = j).
Proof.
  intros n0 n1 n2 q h i j H1 H2 Hq Hh Hi Hj. split.
  - intros ->. apply flat3_decode; auto.
  - intros (E0 & E1 & E2). destruct (flat3_encode n0 n1 n2 q H1 H2 Hq) as (E & _). rewrite E0, E1, E2 in E. auto.
Qed.

Lemma partner_iff : forall per n0 n1 n2 o0 o1 o2 p q, 1 <= n0 /\ 1 <= n1 /\ 1 <= n2 ->
  0 <= p < n0 * n1 * n2 -> 0 <= q < n0 * n1 * n2 ->
  (rel per n0 (p / (n1 * n2)) o0 (q / (n1 * n2)) /\ rel per n1 (p / n2 mod n1) o1 (q / n2 mod n1) /\ rel per n2 (p mod n2) o2 (q mod n2)
   <-> partner per n0 n1 n2 o0 o1 o2 (dec n1 n2 p) = Some q).
Proof.
  intros per n0 n1 n2 o0 o1 o2 p q (P0 & P1 & P2) Hp Hq.
  destruct (flat3_encode n0 n1 n2 q P1 P2 Hq) as (EQ & Q0 & Q1 & Q2).
  unfold partner, dec, rel. destruct per.
  - split.
    + intros (E0 & E1 & E2). f_equal. rewrite <- E0, <- E1, <- E2. auto.
    + intros E. injection E as E. symmetry in E. apply (flat_eq n0) in E; auto; apply Z.mod_pos_bound; lia.
  - destruct ((0 <=? _) && _ && _ && _ && _ && _) eqn:B.
    + rewrite !andb_true_iff, !Z.leb_le, !Z.ltb_lt in B. split.
      * intros (E0 & E1 & E2). f_equal. rewrite <- E0, <- E1, <- E2. auto.
      * intros E. injection E as E. symmetry in E. apply (flat_eq n0) in E; auto; try lia.
    + split; [|discriminate]. intros (E0 & E1 & E2). exfalso.
      assert (B' : (0 <=? p / (n1 * n2) + o0) && (p / (n1 * n2) + o0 <? n0) && (0 <=? p / n2 mod n1 + o1) &&
        (p / n2 mod n1 + o1 <? n1) && (0 <=? p mod n2 + o2) && (p mod n2 + o2 <? n2) = true).
      { rewrite !andb_true_iff, !Z.leb_le, !Z.ltb_lt. lia. }
      congruence.
Qed.

Lemma partner_range : forall per n0 n1 n2 o0 o1 o2 x q, 1 <= n0 /\ 1 <= n1 /\ 1 <= n2 ->
  partner per n0 n1 n2 o0 o1 o2 x = Some q -> 0 <= q < n0 * n1 * n2.
Proof.
  intros per n0 n1 n2 o0 o1 o2 [[h i] j] q (P0 & P1 & P2) E. unfold partner in E. destruct per.
  - injection E as <-. apply flat3_range; apply Z.mod_pos_bound; lia.
  - destruct ((0 <=? _) && _ && _ && _ && _ && _) eqn:B; [|discriminate]. injection E as <-.
    rewrite !andb_true_iff, !Z.leb_le, !Z.ltb_lt in B. apply flat3_range; lia.
Qed.

Lemma sum_pairs : forall per shape roi n0 n1 n2 k0 k1 k2 r T, length roi = length shape ->
  shape3 shape = Ok (n0, n1, n2) -> shape3 roi = Ok (k0, k1, k2) ->
  1 <= n0 /\ 1 <= n1 /\ 1 <= n2 -> 1 <= k0 /\ 1 <= k1 /\ 1 <= k2 -> 0 <= r < k0 * k1 * k2 ->
  sum_over (pairs per shape (offset roi r)) T =
  sum_over (zrange 0 (n0 * n1 * n2)) (fun p =>
    match partner per n0 n1 n2 (r / (k1 * k2) - (k0 - 1) / 2) (r / k2 mod k1 - (k1 - 1) / 2) (r mod k2 - (k2 - 1) / 2) (dec n1 n2 p) with
    | Some q => T (p, q) | None => 0%Qc end).
Proof.
  intros per shape roi n0 n1 n2 k0 k1 k2 r T HL Hs Hk Pn Pk Hr. unfold pairs, pixels.
  rewrite sum_filter, sum_prod, (shape3_prod _ _ _ _ Hs). apply sum_ext. intros p Hp. apply zrange_In in Hp. cbn [fst snd].
  assert (HB : forall q, 0 <= q < n0 * n1 * n2 -> (movedb per shape (coords shape p) (offset roi r) (coords shape q) = true <->
    partner per n0 n1 n2 (r / (k1 * k2) - (k0 - 1) / 2) (r / k2 mod k1 - (k1 - 1) / 2) (r mod k2 - (k2 - 1) / 2) (dec n1 n2 p) = Some q)).
  { intros q Hq. rewrite movedb_iff, (moved3 per shape roi n0 n1 n2 k0 k1 k2) by auto. apply partner_iff; auto. }
  destruct (partner per n0 n1 n2 _ _ _ (dec n1 n2 p)) as [q0|] eqn:E.
  - pose proof (partner_range _ _ _ _ _ _ _ _ _ Pn E) as Hq0.
    apply (sum_single (zrange 0 (n0 * n1 * n2)) (fun y => movedb per shape (coords shape p) (offset roi r) (coords shape y)) (fun y => T (p, y)) q0).
    + apply zrange_NoDup.
    + apply zrange_In. auto.
    + intros q Hq. apply zrange_In in Hq. rewrite HB by auto. split; [congruence|intros ->; auto].
  - apply (sum_none _ _ (fun y => movedb per shape (coords shape p) (offset roi r) (coords shape y)) (fun y => T (p, y))).
    intros q Hq. apply zrange_In in Hq.
    destruct (movedb _ _ _ _ _) eqn:B; [|auto]. apply HB in B; [discriminate|auto].
Qed.
