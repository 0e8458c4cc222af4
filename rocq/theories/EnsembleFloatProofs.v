(** * EnsembleFloatProofs: on integers the model with doubles follows the exact one *)

From Coq Require Import ZArith Reals Lia Lra Bool List QArith Qcanon Qreals Permutation.
From Flocq Require Import Core BinarySingleNaN.
From Verif Require Import Base BaseLemmas Array3 Path Double DoubleProofs Ensemble EnsembleFloat SpecDouble.
From Verif Require Import DilateTop.
Import ListNotations.
Open Scope Z_scope.

(** ** Outcomes and arrays *)

Lemma alike_bind : forall A B C D (R : A -> B -> Prop) (S : C -> D -> Prop) x y k l,
  alike R x y -> (forall a b, R a b -> alike S (k a) (l b)) -> alike S (bind x k) (bind y l).
Proof. intros A B C D R S [a| | |] [b| | |] k l H K; cbn in *; try tauto. apply K, H. Qed.

Lemma alike_eq : forall A B C (S : B -> C -> Prop) (x : res A) k l,
  (forall a, x = Ok a -> alike S (k a) (l a)) -> alike S (bind x k) (bind x l).
Proof. intros A B C S [a| | |] k l H; cbn; auto. Qed.

Lemma alike_weaken : forall A B (R S : A -> B -> Prop) x y,
  (forall a b, R a b -> S a b) -> alike R x y -> alike S x y.
Proof. intros A B R S [a| | |] [b| | |] H; cbn; auto. Qed.

Definition sim {A B} (R : A -> B -> Prop) (a : arr A) (b : arr B) : Prop :=
  d0 a = d0 b /\ d1 a = d1 b /\ d2 a = d2 b /\ Forall2 R (dat a) (dat b).

Lemma Forall2_nth_rel : forall A B (R : A -> B -> Prop) l m n x y,
  Forall2 R l m -> R x y -> R (nth n l x) (nth n m y).
Proof. intros A B R l m n x y H D. revert n. induction H as [|a b l m Hab H IH]; intros [|n]; cbn; auto. Qed.

Lemma Forall2_nth_error : forall A B (R : A -> B -> Prop) l m n,
  Forall2 R l m ->
  match nth_error l n, nth_error m n with Some a, Some b => R a b | None, None => True | _, _ => False end.
Proof. intros A B R l m n H. revert n. induction H as [|a b l m Hab H IH]; intros [|n]; cbn; auto. apply IH. Qed.

Lemma vget_sim : forall A B (R : A -> B -> Prop) l m i, Forall2 R l m -> alike R (vget l i) (vget m i).
Proof.
  intros A B R l m i H. unfold vget. destruct (i <? 0); [exact I|].
  pose proof (Forall2_nth_error _ _ _ _ _ (Z.to_nat i) H) as N.
  destruct (nth_error l (Z.to_nat i)), (nth_error m (Z.to_nat i)); cbn in *; tauto.
Qed.

Lemma inb_sim : forall A B (R : A -> B -> Prop) a b h i j, sim R a b -> inb a h i j = inb b h i j.
Proof. intros A B R a b h i j (E0 & E1 & E2 & _). unfold inb. rewrite E0, E1, E2. reflexivity. Qed.

Lemma aget_sim : forall A B (R : A -> B -> Prop) a b h i j, sim R a b -> alike R (aget a h i j) (aget b h i j).
Proof.
  intros A B R a b h i j H. unfold aget. rewrite (inb_sim _ _ _ _ _ _ _ _ H). destruct (inb b h i j); [|exact I].
  destruct H as (E0 & E1 & E2 & F). rewrite E1, E2. apply vget_sim, F.
Qed.

Lemma aget3_sim : forall A B (R : A -> B -> Prop) a b x, sim R a b -> alike R (aget3 a x) (aget3 b x).
Proof. intros A B R a b [[h i] j] H. apply aget_sim, H. Qed.

Lemma at3_sim : forall A B (R : A -> B -> Prop) x y a b h i j, R x y -> sim R a b -> R (at3 x a h i j) (at3 y b h i j).
Proof. intros A B R x y a b h i j D (E0 & E1 & E2 & F). unfold at3. rewrite E1, E2. apply Forall2_nth_rel; auto. Qed.

Lemma tab_sim : forall A B (R : A -> B -> Prop) n0 n1 n2 f g,
  (forall h i j, R (f h i j) (g h i j)) -> sim R (tab n0 n1 n2 f) (tab n0 n1 n2 g).
Proof.
  intros A B R n0 n1 n2 f g H. unfold tab. repeat split. cbn [dat].
  induction (zseq 0 (Z.to_nat (n0 * n1 * n2))) as [|p l IH]; cbn [map]; constructor; auto.
Qed.

Lemma pad_constant_sim : forall A B (R : A -> B -> Prop) x y a b P, R x y -> sim R a b -> sim R (pad_constant x a P) (pad_constant y b P).
Proof.
  intros A B R x y a b [[[p0 q0] [p1 q1]] [p2 q2]] D H. unfold pad_constant. pose proof H as (E0 & E1 & E2 & _). rewrite E0, E1, E2.
  apply tab_sim. intros h i j. rewrite (inb_sim _ _ _ _ _ _ _ _ H). destruct (inb b _ _ _); auto. apply at3_sim; auto.
Qed.

Lemma pad_mode_sim : forall A B (R : A -> B -> Prop) per x y a b P, R x y -> sim R a b ->
  alike (sim R) (pad_mode per x a P) (pad_mode per y b P).
Proof.
  intros A B R per x y a b P D H. unfold pad_mode. destruct per; [|cbn; apply pad_constant_sim; auto].
  destruct P as [[[p0 q0] [p1 q1]] [p2 q2]]. unfold pad_periodic. pose proof H as (E0 & E1 & E2 & _). rewrite E0, E1, E2.
  destruct (_ && _); [|exact I]. cbn. apply tab_sim. intros h i j. apply at3_sim; auto.
Qed.

Lemma pad_mode_dims : forall A per (z : A) a p0 q0 p1 q1 p2 q2 F,
  pad_mode per z a ((p0, q0), (p1, q1), (p2, q2)) = Ok F ->
  d0 F = p0 + d0 a + q0 /\ d1 F = p1 + d1 a + q1 /\ d2 F = p2 + d2 a + q2.
Proof.
  intros A per z a p0 q0 p1 q1 p2 q2 F H. unfold pad_mode in H. destruct per.
  - unfold pad_periodic in H. destruct (_ && _) in H; inversion H; subst. cbn. auto.
  - inversion H; subst. cbn. auto.
Qed.

Lemma window_sim : forall A B (R : A -> B -> Prop) x y P G H p, R x y -> sim R G H ->
  alike (fun v w => forall a b c, R (v a b c) (w a b c)) (window x P G p) (window y P H p).
Proof.
  intros A B R x y [[[p0 q0] [p1 q1]] [p2 q2]] G H [[h i] j] D S. unfold window.
  rewrite !(inb_sim _ _ _ _ _ _ _ _ S). destruct (_ && _); [|exact I]. cbn. intros a b c. apply at3_sim; auto.
Qed.

Lemma loop3_length : forall h0 h1 i0 i1 j0 j1,
  length (loop3 h0 h1 i0 i1 j0 j1) = (Z.to_nat (h1 - h0) * (Z.to_nat (i1 - i0) * Z.to_nat (j1 - j0)))%nat.
Proof.
  intros. unfold loop3.
  assert (FM : forall A B (f : A -> list B) n l, (forall x, length (f x) = n) -> length (flat_map f l) = (length l * n)%nat).
  { intros A B f n l H. induction l as [|a l IH]; cbn; [reflexivity|]. rewrite app_length, IH, H. reflexivity. }
  rewrite (FM _ _ _ (Z.to_nat (i1 - i0) * Z.to_nat (j1 - j0))%nat).
  - rewrite zrange_length. reflexivity.
  - intros h. rewrite (FM _ _ _ (Z.to_nat (j1 - j0))).
    + rewrite zrange_length. reflexivity.
    + intros i. rewrite map_length, zrange_length. reflexivity.
Qed.

Lemma to3_dims : forall A (f : img A) a, to3 f = Ok a -> proper f ->
  0 <= d0 a /\ 0 <= d1 a /\ 0 <= d2 a /\ d0 a * d1 a * d2 a = zprod (i_shape f) /\ dat a = i_vals f.
Proof.
  intros A f a H [N _]. unfold to3, atleast_3d in H. destruct (shape3 (i_shape f)) as [[[n0 n1] n2]| | |] eqn:E; inversion H; subst. cbn.
  rewrite (shape3_prod _ _ _ _ E).
  destruct (i_shape f) as [|s0 [|s1 [|s2 [|]]]]; cbn in E; inversion E; subst; inversion N; subst;
    repeat match goal with H : Forall _ (_ :: _) |- _ => inversion H; clear H; subst end; repeat split; lia.
Qed.

Lemma positions_length : forall A per (z : A) f a P F, proper f -> to3 f = Ok a -> pad_mode per z a P = Ok F ->
  lenZ (positions P F) = zprod (i_shape f).
Proof.
  intros A per z f a [[[p0 q0] [p1 q1]] [p2 q2]] F Hp H3 HP. apply pad_mode_dims in HP. destruct HP as (E0 & E1 & E2).
  destruct (to3_dims _ _ _ H3 Hp) as (N0 & N1 & N2 & E & _).
  unfold positions, lenZ. rewrite loop3_length, E0, E1, E2, <- E.
  replace (p0 + d0 a + q0 - q0 - p0) with (d0 a) by lia. replace (p1 + d1 a + q1 - q1 - p1) with (d1 a) by lia.
  replace (p2 + d2 a + q2 - q2 - p2) with (d2 a) by lia. rewrite !Nat2Z.inj_mul, !Z2Nat.id by lia. ring.
Qed.

Lemma positions_sim : forall A B (R : A -> B -> Prop) P F G, sim R F G -> positions P F = positions P G.
Proof. intros A B R [[[p0 q0] [p1 q1]] [p2 q2]] F G (E0 & E1 & E2 & _). unfold positions. rewrite E0, E1, E2. reflexivity. Qed.

(** A loop; the relation may depend on the number of turns. *)
Lemma foldM_sim : forall A S T (R : Z -> S -> T -> Prop) (F : S -> A -> res S) (G : T -> A -> res T) n l k s t,
  (forall k s t x, In x l -> 0 <= k < n -> R k s t -> alike (R (k + 1)) (F s x) (G t x)) ->
  0 <= k -> k + lenZ l <= n -> R k s t -> alike (R (k + lenZ l)) (foldM F l s) (foldM G l t).
Proof.
  intros A S T R F G n l. induction l as [|x l IH]; intros k s t H K N HR.
  - cbn. unfold lenZ. cbn. rewrite Z.add_0_r. exact HR.
  - cbn [foldM]. unfold lenZ in *. cbn [length] in *. rewrite Nat2Z.inj_succ in *.
    apply alike_bind with (R := R (k + 1)).
    + apply H; [left; reflexivity|lia|exact HR].
    + intros a b Hab. replace (k + Z.succ (Z.of_nat (length l))) with (k + 1 + Z.of_nat (length l)) by lia.
      apply IH; auto; try lia. intros. apply H; auto. right. auto.
Qed.

(** ** The state *)

Definition esim (K : Z) (e : ens) (x : fens) : Prop :=
  e_stat e = f_stat x /\ e_per e = f_per x /\ e_var e = f_var x /\ e_roi e = f_roi x /\
  sim (exactly K) (e_first e) (f_first x) /\ sim (exactly K) (e_second e) (f_second x) /\ sim (exactly K) (e_norm e) (f_norm x).

Lemma sim_weaken : forall a b x y, sim (exactly a) x y -> a <= b -> sim (exactly b) x y.
Proof.
  intros a b x y (E0 & E1 & E2 & F) H. repeat split; auto. induction F; constructor; auto. eapply exactly_weaken; eauto.
Qed.

Lemma plus_sim : forall K b A B v w, sim (exactly K) A B -> (forall a c d, exactly b (v a c d) (w a c d)) -> 0 <= K -> K + b <= 2 ^ 53 ->
  sim (exactly (K + b)) (plus A v) (fplus B w).
Proof.
  intros K b A B v w H V HK HB. unfold plus, fplus. pose proof H as (E0 & E1 & E2 & _). rewrite E0, E1, E2.
  apply tab_sim. intros h i j. apply exactly_plus; auto. apply at3_sim; auto. apply exactly_zero; auto.
Qed.

Lemma esim_weaken : forall a b e x, esim a e x -> a <= b -> esim b e x.
Proof.
  intros a b e x (E1 & E2 & E3 & E4 & E5 & E6 & E7) H.
  repeat (split; [first [assumption|eapply sim_weaken; eauto]|]). eapply sim_weaken; eauto.
Qed.

Lemma esim_set : forall K L e x a b c a' b' c', esim K e x ->
  sim (exactly L) a a' -> sim (exactly L) b b' -> sim (exactly L) c c' -> esim L (set_data e a b c) (fset_data x a' b' c').
Proof. intros K L e x a b c a' b' c' (E1 & E2 & E3 & E4 & E5 & E6 & E7) A B C. unfold esim. cbn. auto 10. Qed.

Lemma esim_stat : forall K e x s, esim K e x -> esim K (set_stat e s) (fset_stat x s).
Proof. intros K e x s (E1 & E2 & E3 & E4 & E5 & E6 & E7). unfold esim. cbn. auto 10. Qed.

Lemma esim_pad : forall K e x, esim K e x -> e_pad e = f_pad x.
Proof. intros K e x (_ & _ & _ & _ & (E0 & E1 & E2 & _) & _). unfold e_pad, f_pad. rewrite E0, E1, E2. reflexivity. Qed.

Lemma esim_roi_ok : forall K e x, esim K e x -> roi_ok e = froi_ok x.
Proof. intros K e x (_ & _ & _ & _ & (E0 & E1 & E2 & _) & _). unfold roi_ok, froi_ok. rewrite E0, E1, E2. reflexivity. Qed.

Lemma esim_unlocked : forall K e x s, esim K e x -> unlocked e s = funlocked x s.
Proof. intros K e x s (E & _). unfold unlocked, funlocked. rewrite E. reflexivity. Qed.

(** Masks. *)
Definition bits (a : arr Z) : Prop := forall x, In x (dat a) -> x = 0 \/ x = 1.

Lemma bits_at3 : forall d a h i j, (d = 0 \/ d = 1) -> bits a -> at3 d a h i j = 0 \/ at3 d a h i j = 1.
Proof.
  intros d a h i j D B. unfold at3. destruct (nth_in_or_default (Z.to_nat (flat3 (d1 a) (d2 a) h i j)) (dat a) d) as [H|H].
  - apply B, H.
  - rewrite H. exact D.
Qed.

Lemma bits_pad : forall per m P, bits m -> bits (pad_mask per m P).
Proof.
  intros per m [[[p0 q0] [p1 q1]] [p2 q2]] B x Hx. unfold pad_mask, pad_constant, tab in Hx. cbn [dat] in Hx.
  apply in_map_iff in Hx. destruct Hx as (p & <- & _).
  assert (D : (if per then 0 else 1) = 0 \/ (if per then 0 else 1) = 1) by (destruct per; auto).
  destruct (inb _ _ _ _); [apply bits_at3; auto|exact D].
Qed.

Lemma exactly_inverse : forall m, m = 0 \/ m = 1 -> exactly 1 (1 - zq m)%Qc (inverse m).
Proof.
  intros m H. replace (1 - zq m)%Qc with (zq (1 - m)) by (rewrite <- zq_minus; reflexivity).
  assert (D : exactly (1 + 1) (zq 1 - zq m)%Qc (inverse m)).
  { unfold inverse. apply exactly_minus; [|destruct H; subst m|lia].
    - apply (exactly_dz 1). lia.
    - eapply exactly_weaken; [apply exactly_dz; cbn; lia|cbn; lia].
    - eapply exactly_weaken; [apply exactly_dz; cbn; lia|cbn; lia]. }
  rewrite zq_minus in D. destruct D as (F & z & E & R & _). split; [exact F|]. exists z. repeat split; auto.
  apply zq_inj in E. subst z. destruct H; subst m; cbn; lia.
Qed.

Lemma window_bits : forall P G x v, bits G -> window 0 P G x = Ok v -> forall a b c, v a b c = 0 \/ v a b c = 1.
Proof.
  intros [[[p0 q0] [p1 q1]] [p2 q2]] G [[h i] j] v B H a b c. unfold window in H. destruct (_ && _) in H; inversion H; subst.
  apply bits_at3; auto.
Qed.

(** ** The points *)

Ltac parts H := destruct H as (Hstat & Hper & Hvar & Hroi & Hf & Hs & Hn).

Lemma S2_point_sim : forall M K P F G F' G' Fm Gm e x p,
  1 <= M -> 0 <= K -> K + M * M <= 2 ^ 53 -> sim (exactly M) F F' -> sim (exactly M) G G' -> bits Gm -> esim K e x ->
  alike (esim (K + M * M)) (S2_point P F G Fm Gm e p) (fS2_point P F' G' Fm Gm x p).
Proof.
  intros M K P F G F' G' Fm Gm e x p HM HK HB SF SG BG HE. unfold S2_point, fS2_point.
  apply alike_eq. intros m _. destruct (negb (m =? 0)). { cbn [alike]. eapply esim_weaken; [exact HE|first [lia|nia]]. }
  eapply alike_bind. { apply window_sim with (R := exactly M); [apply exactly_zero; lia|exact SG]. } intros Gi Gi' HG. cbv beta in HG.
  apply alike_eq. intros Gw HW. pose proof (window_bits _ _ _ _ BG HW) as HB1.
  eapply alike_bind. { apply aget3_sim with (R := exactly M). exact SF. } intros f f' Hff.
  rewrite (exactly_eq M 0 f 0%Qc f' dzero Hff (exactly_zero 0 ltac:(lia))). cbn [alike].
  pose proof HE as HE'. parts HE'.
  assert (HI : forall a c d, exactly 1 (1 - zq (Gw a c d))%Qc (inverse (Gw a c d))) by (intros; apply exactly_inverse, HB1).
  eapply esim_set; [exact HE| | |].
  - destruct (Qceq_b f 0%Qc); [eapply sim_weaken; [exact Hf|first [lia|nia]]|].
    apply plus_sim; auto. intros a c d. replace (M * M) with (M * M * 1) by lia.
    apply exactly_times; [apply exactly_times; auto; first [lia|nia]|apply HI|first [lia|nia]].
  - eapply sim_weaken; [exact Hs|first [lia|nia]].
  - eapply sim_weaken; [apply plus_sim with (b := 1); eauto; first [lia|nia]|first [lia|nia]].
Qed.

Lemma W2_point_sim : forall M K P F G F' G' Gm e x p,
  1 <= M -> 0 <= K -> K + M * M <= 2 ^ 53 -> sim (exactly M) F F' -> sim (exactly M) G G' -> bits Gm -> esim K e x ->
  alike (esim (K + M * M)) (W2_point P F G Gm e p) (fW2_point P F' G' Gm x p).
Proof.
  intros M K P F G F' G' Gm e x p HM HK HB SF SG BG HE. unfold W2_point, fW2_point.
  eapply alike_bind. { apply window_sim with (R := exactly M); [apply exactly_zero; lia|exact SG]. } intros Gi Gi' HG. cbv beta in HG.
  apply alike_eq. intros Gw HW. pose proof (window_bits _ _ _ _ BG HW) as HB1.
  eapply alike_bind. { apply aget3_sim with (R := exactly M). exact SF. } intros f f' Hff.
  rewrite (exactly_eq M 0 f 0%Qc f' dzero Hff (exactly_zero 0 ltac:(lia))). cbn [alike].
  pose proof HE as HE'. parts HE'.
  assert (HI : forall a c d, exactly 1 (1 - zq (Gw a c d))%Qc (inverse (Gw a c d))) by (intros; apply exactly_inverse, HB1).
  eapply esim_set; [exact HE| | |].
  - destruct (Qceq_b f 0%Qc); [eapply sim_weaken; [exact Hf|first [lia|nia]]|].
    apply plus_sim; auto. intros a c d. replace (M * M) with (M * M * 1) by lia.
    apply exactly_times; [apply exactly_times; auto; first [lia|nia]|apply HI|first [lia|nia]].
  - eapply sim_weaken; [exact Hs|first [lia|nia]].
  - eapply sim_weaken; [apply plus_sim with (b := M * 1); eauto; [|first [lia|nia]]|first [lia|nia]].
    intros a c d. apply exactly_times; auto. first [lia|nia].
Qed.

Lemma C2_point_sim : forall K P F G Fm Gm e x p,
  0 <= K -> K + 1 <= 2 ^ 53 -> bits Gm -> esim K e x ->
  alike (esim (K + 1)) (C2_point P F G Fm Gm e p) (fC2_point P F G Fm Gm x p).
Proof.
  intros K P F G Fm Gm e x p HK HB BG HE. unfold C2_point, fC2_point.
  apply alike_eq. intros m _. destruct (negb (m =? 0)). { cbn [alike]. eapply esim_weaken; [exact HE|lia]. }
  apply alike_eq. intros Gi _. apply alike_eq. intros Gw HW. pose proof (window_bits _ _ _ _ BG HW) as HB1.
  apply alike_eq. intros f _. cbn [alike].
  pose proof HE as HE'. parts HE'.
  assert (HI : forall a c d, exactly 1 (1 - zq (Gw a c d))%Qc (inverse (Gw a c d))) by (intros; apply exactly_inverse, HB1).
  eapply esim_set; [exact HE| | |].
  - destruct (f =? 0); [eapply sim_weaken; [exact Hf|lia]|].
    apply plus_sim; auto. intros a c d. destruct (f =? Gi a c d); [apply HI|apply exactly_zero; lia].
  - eapply sim_weaken; [exact Hs|lia].
  - apply plus_sim; auto.
Qed.

Lemma exactly_square : forall L b q x, library L -> exactly b q x -> b * b <= 2 ^ 53 -> exactly (b * b) (q * q)%Qc (pow2 L x).
Proof.
  intros L b q x (P2 & _ & _) (Fx & z & -> & Ex & Bx) H.
  assert (z * z <= b * b) by first [lia|nia]. destruct (P2 x z Fx Ex ltac:(lia)) as [F E].
  split; [exact F|]. exists (z * z). rewrite zq_times. repeat split; auto. rewrite Z.abs_eq; first [lia|nia].
Qed.

Lemma exactly_fourth : forall L b q x, library L -> exactly b q x -> b * b * (b * b) <= 2 ^ 53 ->
  exactly (b * b * (b * b)) (q * q * (q * q))%Qc (pow4 L x).
Proof.
  intros L b q x (_ & P4 & _) (Fx & z & -> & Ex & Bx) H.
  assert (0 <= z * z <= b * b) by first [lia|nia]. assert (z * z * (z * z) <= b * b * (b * b)) by first [lia|nia].
  destruct (P4 x z Fx Ex ltac:(lia)) as [F E].
  split; [exact F|]. exists (z * z * (z * z)). rewrite !zq_times. repeat split; auto. rewrite Z.abs_eq; first [lia|nia].
Qed.

Lemma hh_point_sim : forall L M w K P F F' Fm e x p, library L ->
  1 <= M -> 0 <= K -> w = (if e_var e then 16 * (M * M * (M * M)) else 4 * (M * M)) -> K + w <= 2 ^ 53 ->
  sim (exactly M) F F' -> bits Fm -> esim K e x ->
  alike (esim (K + w)) (hh_point P F Fm e p) (fhh_point L P F' Fm x p).
Proof.
  intros L M w K P F F' Fm e x p HL HM HK Hw HB SF BF HE. unfold hh_point, fhh_point.
  assert (HM4 : M * M <= M * M * (M * M)) by first [lia|nia].
  assert (Hw4 : 4 * (M * M) <= w) by (destruct (e_var e); first [lia|nia]).
  apply alike_eq. intros m _. destruct (negb (m =? 0)). { cbn [alike]. eapply esim_weaken; [exact HE|first [lia|nia]]. }
  eapply alike_bind. { apply window_sim with (R := exactly M); [apply exactly_zero; lia|exact SF]. } intros Fi Fi' HF. cbv beta in HF.
  apply alike_eq. intros Fw HW. pose proof (window_bits _ _ _ _ BF HW) as HB1.
  eapply alike_bind. { apply aget3_sim with (R := exactly M). exact SF. } intros f f' Hff. cbn [alike].
  pose proof HE as HE'. parts HE'.
  assert (HI : forall a c d, exactly 1 (1 - zq (Fw a c d))%Qc (inverse (Fw a c d))) by (intros; apply exactly_inverse, HB1).
  assert (HD : forall a c d, exactly (M + M) (Fi a c d - f)%Qc (dminus (Fi' a c d) f')) by (intros; apply exactly_minus; auto; first [lia|nia]).
  eapply esim_set; [exact HE| | |].
  - eapply sim_weaken; [apply plus_sim with (b := (M + M) * (M + M) * 1); eauto; [|first [lia|nia]]|first [lia|nia]].
    intros a c d. apply exactly_times; [apply exactly_square; auto; first [lia|nia]|apply HI|first [lia|nia]].
  - rewrite <- Hvar. destruct (e_var e); [|eapply sim_weaken; [exact Hs|first [lia|nia]]].
    eapply sim_weaken; [apply plus_sim with (b := (M + M) * (M + M) * ((M + M) * (M + M)) * 1); eauto; [|first [lia|nia]]|first [lia|nia]].
    intros a c d. apply exactly_times; [apply exactly_fourth; auto; first [lia|nia]|apply HI|first [lia|nia]].
  - eapply sim_weaken; [apply plus_sim with (b := 1); eauto; first [lia|nia]|first [lia|nia]].
Qed.

(** ** The calls *)

Lemma image_sim : forall M f x, same_image f x -> integral M f -> alike (sim (exactly M)) (to3 f) (to3 x).
Proof.
  intros M f x [E H] HI. unfold to3, atleast_3d. rewrite <- E. destruct (shape3 (i_shape f)) as [[[n0 n1] n2]| | |]; cbn; auto.
  repeat split. cbn. unfold integral in HI. revert HI. induction H as [|q d l m Hq H IH]; intros HI; constructor.
  - destruct (HI q) as (z & -> & B); [left; reflexivity|]. destruct Hq as [F V]. split; [exact F|]. exists z. rewrite Q2R_zq in V. auto.
  - apply IH. intros r Hr. apply HI. right. exact Hr.
Qed.

Lemma bits_to3 : forall m a, to3 m = Ok a -> zeros_ones m -> bits a.
Proof.
  intros m a H B x Hx. apply B. unfold to3, atleast_3d in H. destruct (shape3 (i_shape m)) as [[[n0 n1] n2]| | |]; inversion H; subst. exact Hx.
Qed.

Lemma zeros_zeros_ones : forall s, zeros_ones (zeros s).
Proof. intros s x H. unfold zeros in H. cbn in H. apply repeat_spec in H. auto. Qed.

Lemma alike_assert : forall A B (S : A -> B -> Prop) a c d k l, c = d ->
  alike S k l -> alike S (_ <- assertb a c ;; k) (_ <- assertb a d ;; l).
Proof. intros A B S a c d k l -> H. unfold assertb. destruct a, d; cbn; auto. Qed.

Ltac assertions HE := repeat (apply alike_assert; [first [reflexivity|eapply esim_unlocked; exact HE|congruence]|]).

(** The loop over the positions. *)
Lemma positions_loop : forall (F : ens -> Z * Z * Z -> res ens) (G : fens -> Z * Z * Z -> res fens) l w K N e x,
  lenZ l = N -> 0 <= w -> 0 <= K -> K + N * w <= 2 ^ 53 -> esim K e x ->
  (forall k e' x' p, 0 <= k -> k + w <= 2 ^ 53 -> e_var e' = e_var e -> esim k e' x' ->
     alike (fun a b => e_var a = e_var e' /\ esim (k + w) a b) (F e' p) (G x' p)) ->
  alike (esim (K + N * w)) (foldM F l e) (foldM G l x).
Proof.
  intros F G l w K N e x HN Hw HK HB HE H.
  eapply alike_weaken; [|apply (foldM_sim _ _ _ (fun k a b => e_var a = e_var e /\ esim (K + k * w) a b) F G N l 0)].
  - cbv beta. intros a b [_ Hab]. rewrite HN in Hab. exact Hab.
  - intros k s t p _ Hk [Hv HR]. eapply alike_weaken; [|apply (H (K + k * w)); auto; nia].
    cbv beta. intros a b [Ha Hb]. split; [congruence|]. replace (K + (k + 1) * w) with (K + k * w + w) by ring. exact Hb.
  - lia.
  - lia.
  - split; [reflexivity|]. replace (K + 0 * w) with K by ring. exact HE.
Qed.

Lemma proper_nonneg : forall A (f : img A), proper f -> 0 <= zprod (i_shape f).
Proof. intros A f [_ H]. rewrite <- H. unfold lenZ. lia. Qed.

Lemma var_keep : forall B (R : ens -> B -> Prop) v r s,
  (forall a, r = Ok a -> e_var a = v) -> alike R r s -> alike (fun a b => e_var a = v /\ R a b) r s.
Proof. intros B R v [a| | |] [b| | |] H; cbn; auto. Qed.

Ltac keep_var := intros a0 Ha0; repeat match goal with
  | H : bind ?x _ = Ok _ |- _ => destruct x eqn:?; cbn [bind] in H; try discriminate
  | H : (if ?c then _ else _) = Ok _ |- _ => destruct c
  | H : Ok _ = Ok _ |- _ => inversion H; subst; clear H
  end; reflexivity.

Lemma S2_sim : forall M K asrt e x f g f' g' m n,
  1 <= M -> 0 <= K -> K + zprod (i_shape f) * (M * M) <= 2 ^ 53 -> proper f ->
  same_image f f' -> same_image g g' -> integral M f -> integral M g -> zeros_ones m -> zeros_ones n -> esim K e x ->
  alike (esim (K + zprod (i_shape f) * (M * M))) (S2 asrt e f g m n) (fS2 asrt x f' g' m n).
Proof.
  intros M K asrt e x f g f' g' m n HM HK HB Hp Sf Sg If Ig Bm Bn HE. unfold S2, fS2.
  pose proof Sf as [Ef _]. pose proof Sg as [Eg _]. rewrite <- Ef, <- Eg. rewrite <- (esim_roi_ok _ _ _ HE), <- (esim_pad _ _ _ HE).
  pose proof HE as HE'. parts HE'. rewrite <- Hroi, <- Hper. assertions HE.
  apply alike_eq. intros [] _.
  destruct (to3 f) as [f3| | |] eqn:E3; [|pose proof (image_sim _ _ _ Sf If) as A; rewrite E3 in A; destruct (to3 f'); cbn in A |- *; tauto ..].
  pose proof (image_sim _ _ _ Sf If) as A. rewrite E3 in A. destruct (to3 f') as [f3'| | |]; cbn in A; try tauto. cbn [bind].
  eapply alike_bind; [apply image_sim; eauto|]. intros g3 g3' SG. apply alike_eq. intros m3 Em. apply alike_eq. intros n3 En.
  destruct (pad_mode (e_per e) 0%Qc f3 (e_pad e)) as [F| | |] eqn:EF;
    [|pose proof (pad_mode_sim _ _ _ (e_per e) 0%Qc dzero f3 f3' (e_pad e) (exactly_zero M ltac:(lia)) A) as A2; rewrite EF in A2;
      destruct (pad_mode (e_per e) dzero f3' (e_pad e)); cbn in A2 |- *; tauto ..].
  pose proof (pad_mode_sim _ _ _ (e_per e) 0%Qc dzero f3 f3' (e_pad e) (exactly_zero M ltac:(lia)) A) as A2. rewrite EF in A2.
  destruct (pad_mode (e_per e) dzero f3' (e_pad e)) as [F'| | |]; cbn in A2; try tauto. cbn [bind].
  eapply alike_bind; [apply pad_mode_sim with (R := exactly M); [apply exactly_zero; lia|exact SG]|]. intros G G' SG2.
  rewrite <- (positions_sim _ _ _ _ _ _ A2).
  apply positions_loop; auto.
  - eapply positions_length; eauto.
  - nia.
  - apply esim_stat. exact HE.
  - intros k e' x' p Hk Hkb Hv HE2. apply var_keep.
    + unfold S2_point. keep_var.
    + apply S2_point_sim; auto. apply bits_pad. eapply bits_to3; eauto.
Qed.

Lemma W2_sim : forall M K asrt e x f g f' g' n,
  1 <= M -> 0 <= K -> K + zprod (i_shape f) * (M * M) <= 2 ^ 53 -> proper f ->
  same_image f f' -> same_image g g' -> integral M f -> integral M g -> zeros_ones n -> esim K e x ->
  alike (esim (K + zprod (i_shape f) * (M * M))) (W2 asrt e f g n) (fW2 asrt x f' g' n).
Proof.
  intros M K asrt e x f g f' g' n HM HK HB Hp Sf Sg If Ig Bn HE. unfold W2, fW2.
  pose proof Sf as [Ef _]. pose proof Sg as [Eg _]. rewrite <- Ef, <- Eg. rewrite <- (esim_roi_ok _ _ _ HE), <- (esim_pad _ _ _ HE).
  pose proof HE as HE'. parts HE'. rewrite <- Hroi, <- Hper. assertions HE.
  apply alike_eq. intros [] _.
  destruct (to3 f) as [f3| | |] eqn:E3; [|pose proof (image_sim _ _ _ Sf If) as A; rewrite E3 in A; destruct (to3 f'); cbn in A |- *; tauto ..].
  pose proof (image_sim _ _ _ Sf If) as A. rewrite E3 in A. destruct (to3 f') as [f3'| | |]; cbn in A; try tauto. cbn [bind].
  eapply alike_bind; [apply image_sim; eauto|]. intros g3 g3' SG. apply alike_eq. intros n3 En.
  destruct (pad_mode (e_per e) 0%Qc f3 (e_pad e)) as [F| | |] eqn:EF;
    [|pose proof (pad_mode_sim _ _ _ (e_per e) 0%Qc dzero f3 f3' (e_pad e) (exactly_zero M ltac:(lia)) A) as A2; rewrite EF in A2;
      destruct (pad_mode (e_per e) dzero f3' (e_pad e)); cbn in A2 |- *; tauto ..].
  pose proof (pad_mode_sim _ _ _ (e_per e) 0%Qc dzero f3 f3' (e_pad e) (exactly_zero M ltac:(lia)) A) as A2. rewrite EF in A2.
  destruct (pad_mode (e_per e) dzero f3' (e_pad e)) as [F'| | |]; cbn in A2; try tauto. cbn [bind].
  eapply alike_bind; [apply pad_mode_sim with (R := exactly M); [apply exactly_zero; lia|exact SG]|]. intros G G' SG2.
  rewrite <- (positions_sim _ _ _ _ _ _ A2).
  apply positions_loop; auto.
  - eapply positions_length; eauto.
  - nia.
  - apply esim_stat. exact HE.
  - intros k e' x' p Hk Hkb Hv HE2. apply var_keep.
    + unfold W2_point. keep_var.
    + apply W2_point_sim; auto. apply bits_pad. eapply bits_to3; eauto.
Qed.

Lemma C2_sim : forall K asrt e x f g m n,
  0 <= K -> K + zprod (i_shape f) <= 2 ^ 53 -> proper f -> zeros_ones n -> esim K e x ->
  alike (esim (K + zprod (i_shape f))) (C2 asrt e f g m n) (fC2 asrt x f g m n).
Proof.
  intros K asrt e x f g m n HK HB Hp Bn HE. unfold C2, fC2.
  rewrite <- (esim_roi_ok _ _ _ HE), <- (esim_pad _ _ _ HE).
  pose proof HE as HE'. parts HE'. rewrite <- Hroi, <- Hper. assertions HE.
  apply alike_eq. intros [] _. apply alike_eq. intros f3 E3. apply alike_eq. intros g3 _. apply alike_eq. intros m3 _. apply alike_eq. intros n3 En.
  apply alike_eq. intros F EF. apply alike_eq. intros G _.
  replace (zprod (i_shape f)) with (zprod (i_shape f) * 1) by ring.
  apply positions_loop; auto; try lia.
  - eapply positions_length; eauto.
  - apply esim_stat. exact HE.
  - intros k e' x' p Hk Hkb Hv HE2. apply var_keep.
    + unfold C2_point. keep_var.
    + apply C2_point_sim; auto. apply bits_pad. eapply bits_to3; eauto.
Qed.

Lemma hh_sim : forall L M K asrt e x f f' m w, library L -> w = (if e_var e then 16 * (M * M * (M * M)) else 4 * (M * M)) ->
  1 <= M -> 0 <= K -> K + zprod (i_shape f) * w <= 2 ^ 53 -> proper f ->
  same_image f f' -> integral M f -> zeros_ones m -> esim K e x ->
  alike (esim (K + zprod (i_shape f) * w)) (heightheight asrt e f m) (fheightheight L asrt x f' m).
Proof.
  intros L M K asrt e x f f' m w HL Hw HM HK HB Hp Sf If Bm HE. unfold heightheight, fheightheight.
  pose proof Sf as [Ef _]. rewrite <- Ef. rewrite <- (esim_roi_ok _ _ _ HE), <- (esim_pad _ _ _ HE).
  pose proof HE as HE'. parts HE'. rewrite <- Hroi, <- Hper. assertions HE.
  apply alike_eq. intros [] _.
  destruct (to3 f) as [f3| | |] eqn:E3; [|pose proof (image_sim _ _ _ Sf If) as A; rewrite E3 in A; destruct (to3 f'); cbn in A |- *; tauto ..].
  pose proof (image_sim _ _ _ Sf If) as A. rewrite E3 in A. destruct (to3 f') as [f3'| | |]; cbn in A; try tauto. cbn [bind].
  apply alike_eq. intros m3 Em.
  destruct (pad_mode (e_per e) 0%Qc f3 (e_pad e)) as [F| | |] eqn:EF;
    [|pose proof (pad_mode_sim _ _ _ (e_per e) 0%Qc dzero f3 f3' (e_pad e) (exactly_zero M ltac:(lia)) A) as A2; rewrite EF in A2;
      destruct (pad_mode (e_per e) dzero f3' (e_pad e)); cbn in A2 |- *; tauto ..].
  pose proof (pad_mode_sim _ _ _ (e_per e) 0%Qc dzero f3 f3' (e_pad e) (exactly_zero M ltac:(lia)) A) as A2. rewrite EF in A2.
  destruct (pad_mode (e_per e) dzero f3' (e_pad e)) as [F'| | |]; cbn in A2; try tauto. cbn [bind].
  rewrite <- (positions_sim _ _ _ _ _ _ A2).
  apply positions_loop; auto.
  - eapply positions_length; eauto.
  - destruct (e_var e); nia.
  - apply esim_stat. exact HE.
  - intros k e' x' p Hk Hkb Hv HE2. apply var_keep.
    + unfold hh_point. keep_var.
    + eapply hh_point_sim; eauto.
      * rewrite Hv. exact Hw.
      * apply bits_pad. eapply bits_to3; eauto.
Qed.

(** ** Mean *)

Lemma qsum_perm : forall l m, Permutation l m -> qsum l = qsum m.
Proof. intros l m H. unfold qsum. induction H; cbn [fold_right]; try ring; congruence. Qed.

Lemma qsum_app : forall l m, qsum (l ++ m) = (qsum l + qsum m)%Qc.
Proof. intros l m. unfold qsum. induction l as [|a l IH]; cbn [fold_right app]; [ring|]. rewrite IH. ring. Qed.

Lemma Forall2_lenZ : forall A B (R : A -> B -> Prop) l m, Forall2 R l m -> lenZ l = lenZ m.
Proof. intros A B R l m H. unfold lenZ. f_equal. induction H; cbn; auto. Qed.

Lemma Forall2_flip : forall A B (R : A -> B -> Prop) l m, Forall2 R l m -> Forall2 (fun b a => R a b) m l.
Proof. intros A B R l m H. induction H; constructor; auto. Qed.

Lemma adds_exact : forall l x, adds l x -> forall b q, Forall2 (exactly b) q l -> 0 <= b -> lenZ l * b <= 2 ^ 53 ->
  exactly (lenZ l * b) (qsum q) x.
Proof.
  intros l x H. induction H as [|x|l1 l2 l x y H1 IH1 H2 IH2 HP]; intros b q HF Hb HB.
  - inversion HF; subst. apply exactly_zero. cbn. lia.
  - inversion HF as [|a ? t ? Ha Ht]; subst. inversion Ht; subst. cbn [qsum fold_right].
    replace (a + 0)%Qc with a by ring. eapply exactly_weaken; [exact Ha|change (lenZ [x]) with 1; lia].
  - apply Forall2_flip in HF. destruct (@Permutation.Permutation_Forall2 _ _ _ _ _ _ HP HF) as (q' & HP' & HF').
    apply Forall2_flip in HF'. cbv beta in HF'. apply Forall2_app_inv_r in HF'. destruct HF' as (q1 & q2 & F1 & F2 & ->).
    rewrite (qsum_perm _ _ HP'), qsum_app.
    assert (EL : lenZ l = lenZ l1 + lenZ l2). { unfold lenZ. rewrite (Permutation_length HP), app_length. lia. }
    rewrite EL in *. assert (0 <= lenZ l1 /\ 0 <= lenZ l2) by (unfold lenZ; lia).
    replace ((lenZ l1 + lenZ l2) * b) with (lenZ l1 * b + lenZ l2 * b) in * by ring.
    apply exactly_plus; [apply IH1|apply IH2|]; auto; nia.
Qed.

Lemma total_exact : forall L b q l, library L -> Forall2 (exactly b) q l -> 0 <= b -> lenZ l * b <= 2 ^ 53 ->
  exactly (lenZ l * b) (qsum q) (total L l).
Proof. intros L b q l (_ & _ & HT) HF Hb HB. apply adds_exact; auto. Qed.

Lemma upd_sim : forall A B (R : A -> B -> Prop) l m n a b, Forall2 R l m -> R a b -> Forall2 R (upd n a l) (upd n b m).
Proof. intros A B R l m n a b H D. revert n. induction H as [|x y l m Hxy H IH]; intros [|n]; cbn; constructor; auto. Qed.

Lemma Forall2_weaken : forall a b l m, Forall2 (exactly a) l m -> a <= b -> Forall2 (exactly b) l m.
Proof. intros a b l m H D. induction H; constructor; auto. eapply exactly_weaken; eauto. Qed.

Lemma plus0_sim : forall K b A B v w, sim (exactly K) A B -> exactly b v w -> K + b <= 2 ^ 53 ->
  alike (sim (exactly (K + b))) (plus0 A v) (fplus0 B w).
Proof.
  intros K b A B v w H V HB. unfold plus0, fplus0. pose proof H as (E0 & E1 & E2 & F).
  apply alike_bind with (R := exactly K); [apply vget_sim; exact F|]. intros x y Hxy. cbn [alike].
  repeat split; cbn [d0 d1 d2 dat]; auto. apply upd_sim.
  - eapply Forall2_weaken; [exact F|]. pose proof (exactly_pos _ _ _ V). lia.
  - apply exactly_plus; auto.
Qed.

Lemma image_exact : forall M f x, same_image f x -> integral M f -> Forall2 (exactly M) (i_vals f) (i_vals x).
Proof.
  intros M f x [E H] HI. unfold integral in HI. revert HI. induction H as [|q d l m Hq H IH]; intros HI; constructor.
  - destruct (HI q) as (z & -> & B); [left; reflexivity|]. destruct Hq as [F V]. split; [exact F|]. exists z. rewrite Q2R_zq in V. auto.
  - apply IH. intros r Hr. apply HI. right. exact Hr.
Qed.

Lemma Forall2_map2 : forall A B C D (R : A -> B -> Prop) (S : C -> D -> Prop) f g l m,
  (forall a b, R a b -> S (f a) (g b)) -> Forall2 R l m -> Forall2 S (map f l) (map g m).
Proof. intros A B C D R S f g l m H F. induction F; cbn; constructor; auto. Qed.

Lemma squares_exact : forall L M N q l, library L -> Forall2 (exactly M) q l -> lenZ q = N -> 0 <= M -> N * (M * M) <= 2 ^ 53 ->
  Forall2 (exactly (M * M)) (map (fun x => x * x)%Qc q) (map (pow2 L) l).
Proof.
  intros L M N q l HL HX HN HM HB. destruct HX as [|a b q l Hab HX]; [constructor|].
  assert (1 <= N) by (unfold lenZ in HN; cbn [length] in HN; lia).
  assert (M * M <= 2 ^ 53) by nia.
  apply Forall2_map2 with (R := exactly M); [|constructor; auto]. intros x y Hxy. apply exactly_square; auto.
Qed.

Lemma lenZ_map : forall A B (f : A -> B) l, lenZ (map f l) = lenZ l.
Proof. intros. unfold lenZ. rewrite map_length. reflexivity. Qed.

Lemma mean_sim : forall L M K asrt e x f f', library L ->
  1 <= M -> 0 <= K -> K + zprod (i_shape f) * (M * M) <= 2 ^ 53 -> proper f -> same_image f f' -> integral M f -> esim K e x ->
  alike (esim (K + zprod (i_shape f) * (M * M))) (mean asrt e f) (fmean L asrt x f').
Proof.
  intros L M K asrt e x f f' HL HM HK HB [HN HP] Sf If HE. unfold mean, fmean.
  pose proof HE as HE'. parts HE'. pose proof Hf as (E0 & E1 & E2 & _). rewrite <- E0, <- E1, <- E2. assertions HE.
  pose proof (image_exact _ _ _ Sf If) as HX. pose proof (Forall2_lenZ _ _ _ _ _ HX) as EL.
  rewrite <- HP in *. remember (lenZ (i_vals f)) as N eqn:EN. assert (0 <= N) by (subst N; unfold lenZ; lia).
  assert (N <= N * M) by nia. assert (N * M <= N * (M * M)) by nia.
  assert (A1 : exactly (N * M) (qsum (i_vals f)) (total L (i_vals f'))) by (rewrite EL; apply total_exact; auto; rewrite <- ?EL; lia).
  assert (A2 : exactly (N * (M * M)) (qsum (map (fun x => x * x)%Qc (i_vals f))) (total L (map (pow2 L) (i_vals f')))).
  { replace N with (lenZ (map (pow2 L) (i_vals f'))) by (rewrite lenZ_map; auto). apply total_exact; auto; [|nia|rewrite lenZ_map, <- EL; lia].
    eapply squares_exact; eauto; lia. }
  assert (A3 : exactly N (zq N) (dz (lenZ (i_vals f')))).
  { rewrite <- EL. eapply exactly_weaken; [apply exactly_dz; lia|lia]. }
  eapply alike_bind; [apply plus0_sim with (K := K) (b := N * M); auto; lia|]. intros a a' Ha.
  eapply alike_bind; [apply plus0_sim with (K := K) (b := N * (M * M)); auto; lia|]. intros b b' Hb.
  eapply alike_bind; [apply plus0_sim with (K := K) (b := N); auto; lia|]. intros c c' Hc. cbn [alike].
  eapply esim_set; [apply esim_stat; exact HE| | |]; eapply sim_weaken; eauto; lia.
Qed.

Lemma mean_masked_sim : forall L M K asrt e x f f' m, library L ->
  1 <= M -> 0 <= K -> K + zprod (i_shape f) * (M * M) <= 2 ^ 53 -> proper f -> proper m -> zeros_ones m ->
  same_image f f' -> integral M f -> esim K e x ->
  alike (esim (K + zprod (i_shape f) * (M * M))) (mean_masked asrt e f m) (fmean_masked L asrt x f' m).
Proof.
  intros L M K asrt e x f f' m HL HM HK HB [HN HP] [HNm HPm] Bm Sf If HE. unfold mean_masked, fmean_masked.
  pose proof HE as HE'. parts HE'. pose proof Hf as (E0 & E1 & E2 & _). rewrite <- E0, <- E1, <- E2.
  pose proof Sf as [Es _]. rewrite <- Es. assertions HE.
  destruct (shape_eqb (i_shape f) (i_shape m)) eqn:ES; cbn [negb]; [|exact I].
  assert (ESh : i_shape m = i_shape f).
  { revert ES. generalize (i_shape m) (i_shape f). clear. intros a b. revert a. induction b as [|y b IH]; intros [|z a] H; cbn in H; try discriminate; auto.
    apply andb_prop in H. destruct H as [H1 H2]. apply Z.eqb_eq in H1. f_equal; auto. }
  rewrite ESh in HPm.
  pose proof (image_exact _ _ _ Sf If) as HX. pose proof (Forall2_lenZ _ _ _ _ _ HX) as EL.
  rewrite <- HP in *. remember (lenZ (i_vals f)) as N eqn:EN. assert (0 <= N) by (subst N; unfold lenZ; lia).
  assert (N <= N * M) by nia. assert (N * M <= N * (M * M)) by nia.
  set (fm := combine (i_vals f) (i_vals m)). set (fm' := combine (i_vals f') (i_vals m)).
  assert (HC : Forall2 (fun a b => exactly M (fst a) (fst b) /\ snd a = snd b) fm fm').
  { unfold fm, fm'. generalize (i_vals m). clear - HX. induction HX as [|a b l l' Hab HX IH]; intros [|z t]; cbn; constructor; cbn; auto. }
  assert (LC : lenZ fm' = N).
  { unfold fm', lenZ in *. rewrite combine_length. lia. }
  assert (A1 : exactly (N * M) (qsum (map (fun x => if snd x =? 0 then fst x else 0%Qc) fm)) (total L (map (fun x => if snd x =? 0 then fst x else dzero) fm'))).
  { replace N with (lenZ (map (fun x : double * Z => if snd x =? 0 then fst x else dzero) fm')) by (rewrite lenZ_map; auto).
    apply total_exact; auto; [|lia|rewrite lenZ_map, LC; lia].
    eapply Forall2_map2; [|exact HC]. cbv beta. intros [q z] [d w] [H6 H7]. cbn [fst snd] in *. subst w. destruct (z =? 0); auto. apply exactly_zero. lia. }
  assert (A2 : exactly (N * (M * M)) (qsum (map (fun x => if snd x =? 0 then (fst x * fst x)%Qc else 0%Qc) fm))
                 (total L (map (fun x => if snd x =? 0 then pow2 L (fst x) else dzero) fm'))).
  { replace N with (lenZ (map (fun x : double * Z => if snd x =? 0 then pow2 L (fst x) else dzero) fm')) by (rewrite lenZ_map; auto).
    apply total_exact; auto; [|nia|rewrite lenZ_map, LC; lia].
    clear A1. destruct HC as [|a b l l' Hab HC]; [constructor|].
    assert (1 <= N) by (unfold lenZ in LC; cbn [length] in LC; lia). assert (M * M <= 2 ^ 53) by nia.
    eapply Forall2_map2 with (R := fun a b => exactly M (fst a) (fst b) /\ snd a = snd b); [|constructor; auto].
    intros [q z] [d w] [H4 H5]. cbn [fst snd] in *. subst w. destruct (z =? 0); [apply exactly_square; auto|apply exactly_zero; nia]. }
  assert (A3 : exactly N (zq (zsum (map (fun m => 1 - m) (i_vals m)))) (dz (zsum (map (fun m => 1 - m) (i_vals m))))).
  { assert (HZ : 0 <= zsum (map (fun m => 1 - m) (i_vals m)) <= N).
    { rewrite <- HPm. clear - Bm. unfold zeros_ones in Bm. revert Bm. induction (i_vals m) as [|z l IH]; intros B; [cbn; lia|].
      cbn [map zsum]. destruct (B z (or_introl eq_refl)); unfold lenZ in *; cbn [length]; specialize (IH (fun x H => B x (or_intror H))); lia. }
    eapply exactly_weaken; [apply exactly_dz; lia|lia]. }
  cbv zeta.
  eapply alike_bind; [apply plus0_sim with (K := K) (b := N * M); auto; lia|]. intros a a' Ha.
  eapply alike_bind; [apply plus0_sim with (K := K) (b := N * (M * M)); auto; lia|]. intros b b' Hb.
  eapply alike_bind; [apply plus0_sim with (K := K) (b := N); auto; lia|]. intros c c' Hc. cbn [alike].
  eapply esim_set; [apply esim_stat; exact HE| | |]; eapply sim_weaken; eauto; lia.
Qed.

(** ** Paths: the number of rows *)

Lemma bres_loop_rows : forall fuel n xb j a s x d rows, bres_loop fuel n xb j a s x d = Ok rows -> (length rows <= fuel)%nat.
Proof.
  induction fuel as [|fuel IH]; intros n xb j a s x d rows H; cbn [bres_loop] in H; [discriminate|].
  destruct (tget xb (idx j)); cbn [bind] in H; try discriminate.
  destruct (get x j =? a0); [inversion H; cbn; lia|].
  destruct (bres_check _ _ _ _) as [x' d'].
  match type of H with bind ?r _ = _ => destruct r eqn:E; cbn [bind] in H; try discriminate end.
  inversion H; subst. apply IH in E. cbn. lia.
Qed.

Lemma cross_each_rows : forall tm todo done, (length (cross_each tm done todo) <= length todo)%nat.
Proof.
  intros tm. induction todo as [|d t IH]; intros done; cbn [cross_each]; [cbn; lia|].
  destruct (crosses tm d); cbn [length]; [specialize (IH (done ++ [cross d]))|specialize (IH (done ++ [d]))]; lia.
Qed.

Lemma line_loop_rows : forall full fuel l rows, line_loop full fuel l = Ok rows -> (length l <= 3)%nat -> (length rows <= 3 * fuel)%nat.
Proof.
  intros full. induction fuel as [|fuel IH]; intros l rows H HL; cbn [line_loop] in H; [discriminate|].
  destruct (tmin l) as [tm|]; [|discriminate].
  set (l' := map (move tm) (cross_all tm l)) in *.
  assert (HR : (length (if full then cross_each tm [] l else [cindex l']) <= 3)%nat).
  { destruct full; [pose proof (cross_each_rows tm l []); lia|cbn; lia]. }
  destruct (reached l'); [inversion H; subst; lia|].
  match type of H with bind ?r _ = _ => destruct r eqn:E; cbn [bind] in H; try discriminate end.
  inversion H; subst. apply IH in E; [rewrite app_length; lia|]. unfold l', cross_all. rewrite !map_length. exact HL.
Qed.

Lemma line_init_length : forall xa xb i l, line_init xa xb i = Ok l -> length l = length xa.
Proof.
  induction xa as [|p xa IH]; intros xb i l H; cbn [line_init] in H; [inversion H; reflexivity|].
  destruct (line_axis xb p i); cbn [bind] in H; try discriminate.
  destruct (line_init xa xb (i + 1)) eqn:E; cbn [bind] in H; try discriminate. inversion H; subst. cbn. f_equal. eauto.
Qed.

Lemma path_rows : forall fuel s mode rows, path fuel [0; 0; 0] s mode = Ok rows -> lenZ rows <= 3 * Z.of_nat fuel + 1.
Proof.
  intros fuel s mode rows H.
  assert (HL : forall full, line full fuel [0; 0; 0] s = Ok rows -> lenZ rows <= 3 * Z.of_nat fuel + 1).
  { intros full0 HX. unfold line in HX. change (3 <? lenZ [0; 0; 0]) with false in HX. cbv iota in HX.
    destruct (line_init [0; 0; 0] s 0) eqn:E; cbn [bind] in HX; try discriminate.
    destruct (line_loop full0 fuel a) eqn:E2; cbn [bind] in HX; try discriminate. inversion HX; subst.
    apply line_init_length in E. apply line_loop_rows in E2; [|rewrite E; cbn; lia]. unfold lenZ. cbn [length]. lia. }
  destruct mode; cbn [path] in H; [|eauto|eauto].
  unfold bresenham in H. change (3 <? lenZ [0; 0; 0]) with false in H. cbv iota in H.
  repeat match type of H with bind ?r _ = _ => destruct r as [[[? ?] ?]| | |]; cbn [bind] in H; try discriminate end.
  destruct (dominant _) as [j|]; [|discriminate]. destruct (others j). apply bres_loop_rows in H. unfold lenZ. lia.
Qed.

(** ** Frames: what a call leaves alone *)

Definition frame (e e' : ens) : Prop :=
  e_var e' = e_var e /\ e_roi e' = e_roi e /\ d0 (e_first e') = d0 (e_first e) /\ d1 (e_first e') = d1 (e_first e) /\ d2 (e_first e') = d2 (e_first e).

Lemma foldM_keep : forall A S (R : S -> S -> Prop) (F : S -> A -> res S) l s s',
  (forall a, R a a) -> (forall a b c, R a b -> R b c -> R a c) -> (forall a x b, F a x = Ok b -> R a b) -> foldM F l s = Ok s' -> R s s'.
Proof.
  intros A S R F l s s' HR HT HF. revert s. induction l as [|x l IH]; intros s H; cbn [foldM] in H; [inversion H; subst; apply HR|].
  destruct (F s x) eqn:E; cbn [bind] in H; try discriminate. eapply HT; [eapply HF; exact E|]. apply IH. exact H.
Qed.

Definition same_dims {A B} (a : arr A) (b : arr B) : Prop := d0 b = d0 a /\ d1 b = d1 a /\ d2 b = d2 a.

Lemma incr_dims : forall m a b c v m', incr m a b c v = Ok m' -> same_dims m m'.
Proof.
  intros m a b c v m' H. unfold incr in H. cbv zeta in H. destruct (vget _ _); cbn [bind] in H; try discriminate.
  destruct (vset _ _ _); cbn [bind] in H; try discriminate. inversion H; subst. repeat split.
Qed.

Lemma L_walk_dims : forall P F x rows a b, L_walk P F x rows a = Ok b -> same_dims a b.
Proof.
  intros P F [[h i] j] rows. destruct P as [[[p0 q0] [p1 q1]] [p2 q2]].
  induction rows as [|r rows IH]; intros a b H; cbn [L_walk] in H; [inversion H; subst; repeat split|].
  destruct r as [|dh [|di [|dj [|]]]]; try discriminate.
  destruct (aget _ _ _ _); cbn [bind] in H; try discriminate. destruct (_ =? 0); [inversion H; subst; repeat split|].
  destruct (incr _ _ _ _ _) eqn:E; cbn [bind] in H; try discriminate. apply incr_dims in E. apply IH in H.
  unfold same_dims in *. intuition congruence.
Qed.

Lemma frame_refl : forall e, frame e e.
Proof. intros e. repeat split. Qed.
Lemma frame_trans : forall a b c, frame a b -> frame b c -> frame a c.
Proof. unfold frame. intuition congruence. Qed.

Ltac unbind H := repeat match type of H with
  | bind ?r _ = Ok _ => destruct r eqn:?; cbn [bind] in H; try discriminate
  | (let '(_, _) := ?p in _) = Ok _ => destruct p
  | (if ?c then _ else _) = Ok _ => destruct c; try discriminate
  end.

Lemma L_stamp_frame : forall P F n mode e s e', L_stamp P F n mode e s = Ok e' -> frame e e'.
Proof.
  intros P F n mode e s e' H. unfold L_stamp in H. unbind H. inversion H; subst. unfold frame. cbn.
  apply foldM_keep with (R := same_dims) in Heqr0; [|repeat split|unfold same_dims; intuition congruence|intros; eapply L_walk_dims; eauto].
  destruct Heqr0 as (? & ? & ?). auto.
Qed.

Definition same_dims2 (a b : arr Qc * arr Qc) : Prop := same_dims (fst a) (fst b).

Lemma W2c_walk_dims : forall P C Fm F label x all rest q a b, W2c_walk P C Fm F label x all rest q a = Ok b -> same_dims2 a b.
Proof.
  intros P C Fm F label [[h i] j] all rest. destruct P as [[[p0 q0] [p1 q1]] [p2 q2]].
  induction rest as [|r rest IH]; intros q a b H; cbn [W2c_walk] in H; [inversion H; subst; repeat split|].
  destruct r as [|dh [|di [|dj [|]]]]; try discriminate.
  destruct (aget C _ _ _); cbn [bind] in H; try discriminate.
  match type of H with bind ?r _ = Ok _ => destruct r as [fn| | |] eqn:E; cbn [bind] in H; try discriminate end.
  apply IH in H. assert (D : same_dims2 a fn).
  { unbind E; try (inversion E; subst; repeat split; fail). destruct a2 as [|th [|ti [|tj [|]]]]; try discriminate. unbind E.
    inversion E; subst. unfold same_dims2. cbn [fst]. eapply incr_dims; eauto. }
  unfold same_dims2, same_dims in *. intuition congruence.
Qed.

Lemma W2c_stamp_frame : forall P C Ce Fm F mode e s e', W2c_stamp P C Ce Fm F mode e s = Ok e' -> frame e e'.
Proof.
  intros P C Ce Fm F mode e s e' H. unfold W2c_stamp in H. unbind H. inversion H; subst. unfold frame. cbn.
  apply foldM_keep with (R := same_dims2) in Heqr0; [|repeat split|unfold same_dims2, same_dims; intuition congruence|].
  - destruct Heqr0 as (? & ? & ?). auto.
  - intros x p y HX. unfold W2c_point in HX. unbind HX; try (inversion HX; subst; repeat split; fail). eapply W2c_walk_dims; eauto.
Qed.

Lemma loop_frame : forall A (F : ens -> A -> res ens) l e s e',
  (forall a x b, F a x = Ok b -> frame a b) -> foldM F l (set_stat e s) = Ok e' -> frame e e'.
Proof.
  intros A F l e s e' HF H. apply frame_trans with (set_stat e s); [repeat split|].
  eapply foldM_keep; [apply frame_refl|apply frame_trans|exact HF|exact H].
Qed.

Lemma add_frame : forall asrt e c e', add asrt e c = Ok e' -> frame e e'.
Proof.
  intros asrt e c e' H. destruct c; cbn [add] in H.
  - unfold mean in H. unbind H. inversion H; subst. unfold frame. cbn. unfold plus0 in Heqr1. unbind Heqr1. inversion Heqr1; subst. auto.
  - unfold mean_masked in H. unbind H. inversion H; subst. unfold frame. cbn. unfold plus0 in Heqr3. unbind Heqr3. inversion Heqr3; subst. auto.
  - unfold S2 in H. unbind H. eapply loop_frame; [|exact H].
    intros x p y HX. unfold S2_point in HX. unbind HX; inversion HX; subst; try (repeat split; fail); destruct (Qceq_b _ _); repeat split.
  - unfold C2 in H. unbind H. eapply loop_frame; [|exact H].
    intros x p y HX. unfold C2_point in HX. unbind HX; inversion HX; subst; try (repeat split; fail); destruct (_ =? 0); repeat split.
  - unfold W2 in H. unbind H. eapply loop_frame; [|exact H].
    intros x p y HX. unfold W2_point in HX. unbind HX; inversion HX; subst; try (repeat split; fail); destruct (Qceq_b _ _); repeat split.
  - unfold W2c in H. unbind H. eapply loop_frame; [|exact H]. intros. eapply W2c_stamp_frame; eauto.
  - unfold heightheight in H. unbind H. eapply loop_frame; [|exact H].
    intros x p y HX. unfold hh_point in HX. unbind HX; inversion HX; subst; repeat split.
  - unfold L in H. unbind H. eapply loop_frame; [|exact H]. intros. eapply L_stamp_frame; eauto.
Qed.

(** ** L *)

Lemma incr_sim : forall K b A B h i j v w, sim (exactly K) A B -> exactly b v w -> K + b <= 2 ^ 53 ->
  alike (sim (exactly (K + b))) (incr A h i j v) (fincr B h i j w).
Proof.
  intros K b A B h i j v w H V HB. unfold incr, fincr. cbv zeta. pose proof H as (E0 & E1 & E2 & F).
  replace (stride_off A h i j) with (stride_off B h i j) by (unfold stride_off; rewrite E0, E1, E2; reflexivity).
  apply alike_bind with (R := exactly K); [apply vget_sim; exact F|]. intros x y Hxy.
  unfold vset. rewrite (Forall2_lenZ _ _ _ _ _ F). destruct (_ || _); [exact I|]. cbn [bind alike].
  repeat split; cbn [d0 d1 d2 dat]; auto. apply upd_sim.
  - eapply Forall2_weaken; [exact F|]. pose proof (exactly_pos _ _ _ V). lia.
  - apply exactly_plus; auto.
Qed.

Lemma exactly_one : exactly 1 1%Qc done.
Proof. apply (exactly_dz 1). lia. Qed.

Lemma L_walk_sim : forall P F x rows K A B, 0 <= K -> sim (exactly K) A B -> K + lenZ rows <= 2 ^ 53 ->
  alike (sim (exactly (K + lenZ rows))) (L_walk P F x rows A) (fL_walk P F x rows B).
Proof.
  intros P F [[h i] j] rows. destruct P as [[[p0 q0] [p1 q1]] [p2 q2]].
  induction rows as [|r rows IH]; intros K A B HK H HB; cbn [L_walk fL_walk].
  - cbn [alike]. eapply sim_weaken; [exact H|unfold lenZ; cbn; lia].
  - assert (EL : lenZ (r :: rows) = 1 + lenZ rows) by (unfold lenZ; cbn [length]; lia). rewrite EL in *.
    assert (0 <= lenZ rows) by (unfold lenZ; lia).
    destruct r as [|dh [|di [|dj [|]]]]; try exact I.
    apply alike_eq. intros v _. destruct (v =? 0); [cbn [alike]; eapply sim_weaken; [exact H|lia]|].
    eapply alike_bind; [apply incr_sim with (K := K) (b := 1); auto using exactly_one; lia|]. intros a b Hab.
    replace (K + (1 + lenZ rows)) with (K + 1 + lenZ rows) by ring. apply IH; auto; lia.
Qed.

Lemma L_norm_sim : forall P n row K A B, 0 <= n -> 0 <= K -> sim (exactly K) A B -> K + n <= 2 ^ 53 ->
  alike (sim (exactly (K + n))) (L_norm P n A row) (fL_norm P n B row).
Proof.
  intros P n row K A B Hn HK H HB. unfold L_norm, fL_norm. destruct row as [|dh [|di [|dj [|]]]]; try exact I.
  destruct P as [[[p0 q0] [p1 q1]] [p2 q2]]. apply incr_sim; auto. eapply exactly_weaken; [apply exactly_dz; lia|lia].
Qed.

Lemma esim_fuel : forall K e x, esim K e x -> path_fuel e = fpath_fuel x.
Proof. intros K e x (_ & _ & _ & _ & (E0 & E1 & E2 & _) & _). unfold path_fuel, fpath_fuel. rewrite E0, E1, E2. reflexivity. Qed.

(** A loop whose turns all add the same bound. *)
Lemma loop_sim : forall A S T (R : Z -> S -> T -> Prop) (F : S -> A -> res S) (G : T -> A -> res T) l w K s t,
  (forall a b x y, R a x y -> a <= b -> R b x y) ->
  0 <= w -> 0 <= K -> K + lenZ l * w <= 2 ^ 53 -> R K s t ->
  (forall k s t p, In p l -> 0 <= k -> k + w <= 2 ^ 53 -> R k s t -> alike (R (k + w)) (F s p) (G t p)) ->
  alike (R (K + lenZ l * w)) (foldM F l s) (foldM G l t).
Proof.
  intros A S T R F G l w K s t HW Hw HK HB HR H.
  apply (foldM_sim _ _ _ (fun k a b => R (K + k * w) a b) F G (lenZ l) l 0); try lia.
  - intros k a b p Hp Hk Hab. replace (K + (k + 1) * w) with (K + k * w + w) by ring. apply H; auto; nia.
  - replace (K + 0 * w) with K by ring. exact HR.
Qed.

Lemma L_stamp_sim : forall P F n mode R K e x s N, lenZ (positions P F) = N -> 0 <= n -> n <= N ->
  1 <= R -> 3 * Z.of_nat (path_fuel e) + 1 <= R ->
  0 <= K -> K + N * R <= 2 ^ 53 -> esim K e x ->
  alike (esim (K + N * R)) (L_stamp P F n mode e s) (fL_stamp P F n mode x s).
Proof.
  intros P F n mode R K e x s N HN Hsz HnN HR HRf HK HB HE. unfold L_stamp, fL_stamp. rewrite <- (esim_fuel _ _ _ HE).
  apply alike_eq. intros rows Hrows. apply path_rows in Hrows. assert (HL : lenZ rows <= R) by lia.
  assert (0 <= lenZ rows) by (unfold lenZ; lia).
  pose proof HE as HE'. parts HE'.
  eapply alike_bind.
  { apply (loop_sim _ _ _ (fun k => sim (exactly k)) _ _ (positions P F) (lenZ rows) K); auto; [intros; eapply sim_weaken; eauto|rewrite HN; nia|].
    intros. apply L_walk_sim; auto. }
  intros a a' Ha. rewrite HN in Ha.
  eapply alike_bind.
  { apply (loop_sim _ _ _ (fun k => sim (exactly k)) _ _ rows n K); auto; [intros; eapply sim_weaken; eauto|nia|].
    intros. apply L_norm_sim; auto. }
  intros c c' Hc. cbn [alike]. eapply esim_set; [exact HE| | |]; eapply sim_weaken; eauto; nia.
Qed.

Lemma stamps_length : forall n0 n1 n2 P, 0 <= n0 -> 0 <= n1 -> 0 <= n2 -> lenZ (stamps n0 n1 n2 P) <= n0 * n1 * n2.
Proof.
  intros n0 n1 n2 [[[p0 q0] [p1 q1]] [p2 q2]] H0 H1 H2. unfold stamps, lenZ. rewrite map_length.
  match goal with |- context[filter ?f ?l] => assert (H : (length (filter f l) <= length l)%nat) end.
  { generalize (loop3 0 n0 0 n1 0 n2). intros l. induction l as [|[[a b] c] l IH]; cbn [filter length]; [lia|]. destruct (negb _); cbn [length]; lia. }
  rewrite loop3_length in H. rewrite !Z.sub_0_r in H. nia.
Qed.

Lemma froi_ok_pos : forall e, roi_ok e = Ok tt -> 1 <= d0 (e_first e) /\ 1 <= d1 (e_first e) /\ 1 <= d2 (e_first e).
Proof.
  intros e H. unfold roi_ok in H. destruct (_ || _) eqn:E; [discriminate|].
  apply orb_false_elim in E. destruct E as [E E3]. apply orb_false_elim in E. destruct E as [E1 E2]. lia.
Qed.

Lemma foldM_frame_sim : forall A (F : ens -> A -> res ens) (G : fens -> A -> res fens) l w K e x,
  0 <= w -> 0 <= K -> K + lenZ l * w <= 2 ^ 53 -> esim K e x ->
  (forall a p b, F a p = Ok b -> frame a b) ->
  (forall k a b p, 0 <= k -> k + w <= 2 ^ 53 -> frame e a -> esim k a b -> alike (esim (k + w)) (F a p) (G b p)) ->
  alike (esim (K + lenZ l * w)) (foldM F l e) (foldM G l x).
Proof.
  intros A F G l w K e x Hw HK HB HE HF H.
  eapply alike_weaken; [|apply (loop_sim _ _ _ (fun k a b => frame e a /\ esim k a b) F G l w K)]; auto.
  - cbv beta. intros a b [_ H']. exact H'.
  - cbv beta. intros a b c d [H1 H2] H3. split; auto. eapply esim_weaken; eauto.
  - split; [apply frame_refl|exact HE].
  - cbv beta. intros k a b p _ Hk Hkb [H1 H2]. specialize (H k a b p Hk Hkb H1 H2). pose proof (HF a p) as HFa.
    destruct (F a p) as [a'| | |], (G b p); cbn [alike] in *; try tauto. split; [|exact H]. eapply frame_trans; eauto.
Qed.

Definition rows_max (e : ens) : Z := 3 * (d0 (e_first e) + d1 (e_first e) + d2 (e_first e) + 1) + 1.

Lemma frame_fuel : forall e a, frame e a -> path_fuel a = path_fuel e.
Proof. intros e a (_ & _ & E0 & E1 & E2). unfold path_fuel. rewrite E0, E1, E2. reflexivity. Qed.

Lemma L_sim : forall K asrt e x f mode,
  let V := d0 (e_first e) * d1 (e_first e) * d2 (e_first e) in
  0 <= K -> K + zprod (i_shape f) * (V * rows_max e) <= 2 ^ 53 -> proper f -> esim K e x ->
  alike (esim (K + zprod (i_shape f) * (V * rows_max e))) (L asrt e f mode) (fL asrt x f mode).
Proof.
  intros K asrt e x f mode V HK HB Hp HE. unfold L, fL.
  rewrite <- (esim_roi_ok _ _ _ HE), <- (esim_pad _ _ _ HE).
  pose proof HE as HE'. parts HE'. rewrite <- Hroi, <- Hper. assertions HE.
  apply alike_eq. intros [] HR. apply froi_ok_pos in HR. apply alike_eq. intros f3 E3. apply alike_eq. intros F EF.
  pose proof Hf as (E0 & E1 & E2 & _). rewrite <- E0, <- E1, <- E2.
  set (st := stamps (d0 (e_first e)) (d1 (e_first e)) (d2 (e_first e)) (e_pad e)).
  assert (HS : lenZ st <= V) by (apply stamps_length; lia). assert (0 <= lenZ st) by (unfold lenZ; lia).
  pose proof (proper_nonneg _ _ Hp) as HN0. assert (1 <= rows_max e) by (unfold rows_max; lia).
  set (N := zprod (i_shape f)) in *. set (R := rows_max e) in *.
  assert (HNR : 0 <= N * R) by nia.
  assert (HV : lenZ st * (N * R) <= N * (V * R)) by (replace (N * (V * R)) with (V * (N * R)) by ring; apply Z.mul_le_mono_nonneg_r; auto).
  eapply alike_weaken; [intros a b Hab; eapply esim_weaken; [exact Hab|]|apply foldM_frame_sim with (K := K) (w := N * R)]; auto; try lia.
  - apply esim_stat. exact HE.
  - intros. eapply L_stamp_frame; eauto.
  - intros k a b p Hk Hkb HF' HE2. apply L_stamp_sim; auto.
    + eapply positions_length; eauto.
    + unfold lenZ. lia.
    + destruct Hp as [_ Hp]. unfold N. lia.
    + rewrite (frame_fuel _ _ HF'). unfold R, rows_max, path_fuel. cbn [set_stat e_first]. lia.
Qed.

(** ** W2c *)

Definition fnsim (K : Z) (a : arr Qc * arr Qc) (b : arr double * arr double) : Prop :=
  sim (exactly K) (fst a) (fst b) /\ sim (exactly K) (snd a) (snd b).

Lemma fnsim_weaken : forall a b x y, fnsim a x y -> a <= b -> fnsim b x y.
Proof. intros a b x y [H1 H2] H. split; eapply sim_weaken; eauto. Qed.

Lemma W2c_walk_sim : forall M P C Fm F F' label x all rest q K A B, 1 <= M -> sim (exactly M) F F' -> 0 <= K -> fnsim K A B ->
  K + lenZ rest * M <= 2 ^ 53 ->
  alike (fnsim (K + lenZ rest * M)) (W2c_walk P C Fm F label x all rest q A) (fW2c_walk P C Fm F' label x all rest q B).
Proof.
  intros M P C Fm F F' label [[h i] j] all rest. destruct P as [[[p0 q0] [p1 q1]] [p2 q2]].
  induction rest as [|r rest IH]; intros q K A B HM SF HK H HB; cbn [W2c_walk fW2c_walk].
  - cbn [alike]. eapply fnsim_weaken; [exact H|unfold lenZ; cbn; lia].
  - assert (EL : lenZ (r :: rest) = 1 + lenZ rest) by (unfold lenZ; cbn [length]; lia). rewrite EL in *.
    assert (0 <= lenZ rest) by (unfold lenZ; lia).
    destruct r as [|dh [|di [|dj [|]]]]; try exact I.
    apply alike_eq. intros c _. cbv zeta. set (q' := if negb (c =? label) && (q <? 0) then 0 else q).
    apply alike_bind with (R := fnsim (K + M)).
    + destruct (0 <=? q'); [|cbn [alike]; eapply fnsim_weaken; [exact H|lia]].
      apply alike_eq. intros m _. destruct (m =? 0); [|cbn [alike]; eapply fnsim_weaken; [exact H|lia]].
      apply alike_eq. intros to _. destruct to as [|th [|ti [|tj [|]]]]; try exact I.
      destruct H as [H1 H2].
      eapply alike_bind; [apply incr_sim with (K := K) (b := 1); auto using exactly_one; nia|]. intros n n' Hn.
      eapply alike_bind; [apply aget_sim; exact SF|]. intros v v' Hv.
      eapply alike_bind; [apply incr_sim with (K := K) (b := M); eauto; nia|]. intros f f' Hf. cbn [alike]. split; cbn [fst snd]; auto.
      eapply sim_weaken; [exact Hn|lia].
    + intros a b Hab. replace (K + (1 + lenZ rest) * M) with (K + M + lenZ rest * M) by ring. apply IH; auto; nia.
Qed.

Lemma W2c_stamp_sim : forall M P C Ce Fm F F' mode R K e x s N, 1 <= M -> sim (exactly M) F F' -> lenZ (positions P F) = N ->
  1 <= R -> 3 * Z.of_nat (path_fuel e) + 1 <= R ->
  0 <= K -> K + N * (R * M) <= 2 ^ 53 -> esim K e x ->
  alike (esim (K + N * (R * M))) (W2c_stamp P C Ce Fm F mode e s) (fW2c_stamp P C Ce Fm F' mode x s).
Proof.
  intros M P C Ce Fm F F' mode R K e x s N HM SF HN HR HRf HK HB HE. unfold W2c_stamp, fW2c_stamp. rewrite <- (esim_fuel _ _ _ HE).
  apply alike_eq. intros rows Hrows. apply path_rows in Hrows. assert (HL : lenZ rows <= R) by lia.
  assert (0 <= lenZ rows) by (unfold lenZ; lia). assert (0 <= N) by (rewrite <- HN; unfold lenZ; lia).
  assert (HRM : lenZ rows * M <= R * M) by nia.
  pose proof HE as HE'. parts HE'. rewrite <- (positions_sim _ _ _ _ _ _ SF).
  eapply alike_bind.
  { apply (loop_sim _ _ _ fnsim _ _ (positions P F) (lenZ rows * M) K); auto; [intros; eapply fnsim_weaken; eauto|nia|rewrite HN; nia|split; auto|].
    intros k a b p _ Hk Hkb Hab. unfold W2c_point, fW2c_point.
    apply alike_eq. intros label _. destruct (label =? 0); [cbn [alike]; eapply fnsim_weaken; [exact Hab|nia]|].
    apply alike_eq. intros c _. destruct (negb (c =? label)); [cbn [alike]; eapply fnsim_weaken; [exact Hab|nia]|].
    apply W2c_walk_sim; auto. }
  intros a a' [H1 H2]. rewrite HN in H1, H2. cbn [alike]. eapply esim_set; [exact HE| | |]; eapply sim_weaken; eauto; nia.
Qed.

Lemma W2c_sim : forall M K asrt e x c ce f f' m mode,
  let V := d0 (e_first e) * d1 (e_first e) * d2 (e_first e) in
  1 <= M -> 0 <= K -> K + zprod (i_shape f) * (V * rows_max e) * M <= 2 ^ 53 -> proper f -> same_image f f' -> integral M f -> esim K e x ->
  alike (esim (K + zprod (i_shape f) * (V * rows_max e) * M)) (W2c asrt e c ce f m mode) (fW2c asrt x c ce f' m mode).
Proof.
  intros M K asrt e x c ce f f' m mode V HM HK HB Hp Sf If HE. unfold W2c, fW2c.
  pose proof Sf as [Ef _]. rewrite <- Ef. rewrite <- (esim_roi_ok _ _ _ HE), <- (esim_pad _ _ _ HE).
  pose proof HE as HE'. parts HE'. rewrite <- Hroi, <- Hper. assertions HE.
  apply alike_eq. intros [] HR. apply froi_ok_pos in HR.
  destruct (to3 f) as [f3| | |] eqn:E3; [|pose proof (image_sim _ _ _ Sf If) as A; rewrite E3 in A; destruct (to3 f'); cbn in A |- *; tauto ..].
  pose proof (image_sim _ _ _ Sf If) as A. rewrite E3 in A. destruct (to3 f') as [f3'| | |]; cbn in A; try tauto. cbn [bind].
  apply alike_eq. intros m3 Em. apply alike_eq. intros c3 Ec. apply alike_eq. intros ce3 Ece.
  destruct (pad_mode (e_per e) 0%Qc f3 (e_pad e)) as [F| | |] eqn:EF;
    [|pose proof (pad_mode_sim _ _ _ (e_per e) 0%Qc dzero f3 f3' (e_pad e) (exactly_zero M ltac:(lia)) A) as A2; rewrite EF in A2;
      destruct (pad_mode (e_per e) dzero f3' (e_pad e)); cbn in A2 |- *; tauto ..].
  pose proof (pad_mode_sim _ _ _ (e_per e) 0%Qc dzero f3 f3' (e_pad e) (exactly_zero M ltac:(lia)) A) as A2. rewrite EF in A2.
  destruct (pad_mode (e_per e) dzero f3' (e_pad e)) as [F'| | |]; cbn in A2; try tauto. cbn [bind].
  apply alike_eq. intros Fm _. apply alike_eq. intros C _. apply alike_eq. intros Ce _.
  pose proof Hf as (E0 & E1 & E2 & _). rewrite <- E0, <- E1, <- E2.
  set (st := stamps (d0 (e_first e)) (d1 (e_first e)) (d2 (e_first e)) (e_pad e)).
  assert (HS : lenZ st <= V) by (apply stamps_length; lia). assert (0 <= lenZ st) by (unfold lenZ; lia).
  pose proof (proper_nonneg _ _ Hp) as HN0. assert (1 <= rows_max e) by (unfold rows_max; lia).
  set (N := zprod (i_shape f)) in *. set (R := rows_max e) in *.
  assert (HRM : 0 <= N * (R * M)) by nia.
  assert (HV : lenZ st * (N * (R * M)) <= N * (V * R) * M) by (replace (N * (V * R) * M) with (V * (N * (R * M))) by ring; apply Z.mul_le_mono_nonneg_r; auto).
  eapply alike_weaken; [intros a b Hab; eapply esim_weaken; [exact Hab|]|apply foldM_frame_sim with (K := K) (w := N * (R * M))]; auto; try lia.
  - apply esim_stat. exact HE.
  - intros. eapply W2c_stamp_frame; eauto.
  - intros k a b p Hk Hkb HF' HE2. apply W2c_stamp_sim; auto.
    + eapply positions_length; eauto.
    + rewrite (frame_fuel _ _ HF'). unfold R, rows_max, path_fuel. cbn [set_stat e_first]. lia.
Qed.

(** ** All calls *)

Lemma mask1_bits : forall A (f : img A) m, (forall n, m = Some n -> zeros_ones n) -> zeros_ones (mask1 f m).
Proof. intros A f [m|] H; cbn; [auto|apply zeros_zeros_ones]. Qed.

Lemma mask2_bits : forall A (f : img A) ms, (forall m n, ms = Some (m, n) -> zeros_ones m /\ zeros_ones n) ->
  zeros_ones (fst (mask2 f ms)) /\ zeros_ones (snd (mask2 f ms)).
Proof. intros A f [[m n]|] H; cbn; [auto|split; apply zeros_zeros_ones]. Qed.

(** The shape of the data is that of the roi. *)
Definition shaped (roi : list Z) (var : bool) (e : ens) : Prop :=
  e_var e = var /\ e_roi e = roi /\ shape3 roi = Ok (d0 (e_first e), d1 (e_first e), d2 (e_first e)).

Lemma shaped_frame : forall roi var e e', shaped roi var e -> frame e e' -> shaped roi var e'.
Proof.
  intros roi var e e' (H1 & H2 & H3) (F1 & F2 & F3 & F4 & F5). unfold shaped. rewrite F1, F2, F3, F4, F5. auto.
Qed.

Lemma rows_bound_ok : forall roi var e, shaped roi var e -> Forall (fun n => 0 <= n) roi ->
  0 <= d0 (e_first e) * d1 (e_first e) * d2 (e_first e) * rows_max e <= rows_bound roi.
Proof.
  intros roi var e (_ & _ & H) HP. unfold rows_bound, rows_max.
  rewrite (shape3_prod _ _ _ _ H).
  set (a := d0 (e_first e)) in *. set (b := d1 (e_first e)) in *. set (c := d2 (e_first e)) in *.
  assert (D : 0 <= a /\ 0 <= b /\ 0 <= c /\ a + b + c <= zsum roi + 3).
  { clearbody a b c. destruct roi as [|s0 [|s1 [|s2 [|]]]]; cbn in H; inversion H; subst;
    repeat match goal with H : Forall _ (_ :: _) |- _ => inversion H; clear H; subst end; cbn [zsum]; repeat split; lia. }
  destruct D as (A & B & C & D). assert (0 <= a * b) by nia. assert (0 <= a * b * c) by nia. nia.
Qed.

Lemma same_image_size : forall f x, same_image f x -> i_shape x = i_shape f.
Proof. intros f x [H _]. auto. Qed.

Lemma add_sim : forall L M roi var K asrt e x c d, library L -> 1 <= M -> 0 <= K -> Forall (fun n => 0 <= n) roi -> shaped roi var e ->
  K + largest roi var M c <= 2 ^ 53 -> integral_call M c -> same_call c d -> esim K e x ->
  alike (esim (K + largest roi var M c)) (add asrt e c) (fadd L asrt x d).
Proof.
  intros L M roi var K asrt e x c d HL HM HK Hroi HS HB HI HC HE.
  destruct c, d; cbn [same_call] in HC; try contradiction; cbn [integral_call] in HI; cbn [largest] in *; cbn [add fadd].
  - destruct HI as [Hp HI]. apply mean_sim; auto.
  - destruct HC as [HC <-]. destruct HI as (Hp & HI & Hm & Bm). apply mean_masked_sim; auto.
  - destruct HC as (HC1 & HC2 & <-). destruct HI as (Hp & HI1 & HI2 & Bm).
    assert (EM : mask2 f0 masks = mask2 f masks) by (unfold mask2; rewrite (same_image_size _ _ HC1); reflexivity). rewrite EM.
    destruct (mask2_bits _ f masks Bm) as [B1 B2]. apply S2_sim; auto.
  - destruct HC as (<- & <- & <-). destruct HI as (Hp & Bm). destruct (mask2_bits _ f masks Bm) as [B1 B2]. apply C2_sim; auto.
  - destruct HC as (HC1 & HC2 & <-). destruct HI as (Hp & HI1 & HI2 & Bm).
    assert (EM : mask1 w0 fmask = mask1 w fmask) by (unfold mask1; rewrite (same_image_size _ _ HC1); reflexivity). rewrite EM.
    apply W2_sim; auto. apply mask1_bits; auto.
  - destruct HC as (<- & <- & HC1 & <- & <-). destruct HI as (Hp & HI1 & Bm).
    assert (EM : mask1 f0 fmask = mask1 f fmask) by (unfold mask1; rewrite (same_image_size _ _ HC1); reflexivity). rewrite EM.
    pose proof (rows_bound_ok _ _ _ HS Hroi) as RB. pose proof (proper_nonneg _ _ Hp) as HN.
    assert (zprod (i_shape f) * (d0 (e_first e) * d1 (e_first e) * d2 (e_first e) * rows_max e) <= zprod (i_shape f) * rows_bound roi) by nia.
    eapply alike_weaken; [|apply W2c_sim with (M := M) (K := K); auto; nia].
    intros a b Hab. eapply esim_weaken; [exact Hab|nia].
  - destruct HC as (HC1 & <-). destruct HI as (Hp & HI1 & Bm).
    assert (EM : mask1 f0 fmask = mask1 f fmask) by (unfold mask1; rewrite (same_image_size _ _ HC1); reflexivity). rewrite EM.
    destruct HS as (<- & _ & _). apply hh_sim with (M := M); auto. apply mask1_bits; auto.
  - destruct HC as (<- & <-).
    pose proof (rows_bound_ok _ _ _ HS Hroi) as RB. pose proof (proper_nonneg _ _ HI) as HN.
    assert (zprod (i_shape f) * (d0 (e_first e) * d1 (e_first e) * d2 (e_first e) * rows_max e) <= zprod (i_shape f) * rows_bound roi) by nia.
    eapply alike_weaken; [|apply L_sim with (K := K); auto; nia].
    intros a b Hab. eapply esim_weaken; [exact Hab|nia].
Qed.

Lemma largest_nonneg : forall roi var M c, Forall (fun n => 0 <= n) roi -> 1 <= M -> integral_call M c -> 0 <= largest roi var M c.
Proof.
  intros roi var M c HR HM HI.
  assert (RB : 0 <= rows_bound roi).
  { unfold rows_bound. assert (0 <= zprod roi /\ 0 <= zsum roi) by (clear -HR; induction HR; cbn [zprod zsum]; nia). nia. }
  destruct c; cbn [integral_call largest] in *; repeat match goal with H : _ /\ _ |- _ => destruct H end;
    match goal with H : proper ?f |- context[zprod (i_shape ?f)] => pose proof (proper_nonneg _ _ H) end; try destruct var;
    revert RB; generalize (rows_bound roi); intros rb RB; repeat apply Z.mul_nonneg_nonneg; lia.
Qed.

Lemma run_sim : forall L M roi var asrt cs ds, library L -> 1 <= M -> Forall (fun n => 0 <= n) roi ->
  Forall2 same_call cs ds -> Forall (integral_call M) cs ->
  forall K e x, 0 <= K -> K + all_calls roi var M cs <= 2 ^ 53 -> shaped roi var e -> esim K e x ->
  alike (esim (K + all_calls roi var M cs)) (foldM (add asrt) cs e) (frun L asrt ds x).
Proof.
  intros L M roi var asrt cs ds HL HM HR HC. induction HC as [|c d cs ds Hcd HC IH]; intros HI K e x HK HB HS HE; unfold frun; cbn [foldM].
  - cbn [alike]. unfold all_calls. cbn [map zsum]. rewrite Z.add_0_r. exact HE.
  - unfold all_calls in *. cbn [map zsum] in *. inversion HI as [|? ? HI1 HI2]; subst.
    pose proof (largest_nonneg roi var M c HR HM HI1) as HN.
    assert (HN2 : 0 <= zsum (map (largest roi var M) cs)).
    { clear - HI2 HR HM. induction HI2 as [|c cs Hc H IH]; cbn [map zsum]; [lia|]. pose proof (largest_nonneg roi var M c HR HM Hc). lia. }
    pose proof (add_sim L M roi var K asrt e x c d HL HM HK HR HS ltac:(lia) HI1 Hcd HE) as HA.
    destruct (add asrt e c) as [e'| | |] eqn:EA, (fadd L asrt x d) as [x'| | |]; cbn [alike bind] in *; try tauto.
    apply add_frame in EA. rewrite Z.add_assoc. apply IH; auto; try lia. eapply shaped_frame; eauto.
Qed.

Lemma ensemble_sim : forall asrt roi per var,
  alike (fun e x => esim 0 e x /\ shaped roi var e) (ensemble asrt roi per var) (fensemble asrt roi per var).
Proof.
  intros asrt roi per var. unfold ensemble, fensemble. apply alike_eq. intros _ _. apply alike_eq. intros [[n0 n1] n2] HS. cbn [alike].
  assert (T : sim (exactly 0) (tab n0 n1 n2 (fun _ _ _ => 0%Qc)) (tab n0 n1 n2 (fun _ _ _ => dzero))) by (apply tab_sim; intros; apply exactly_zero; lia).
  split; [|repeat split; auto]. unfold esim. cbn. auto 10.
Qed.
