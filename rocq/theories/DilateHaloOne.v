(** * DilateHaloOne: one pass over a periodic image, pixel by pixel *)

From Coq Require Import ZArith List Bool Lia Sorted.
From Verif Require Import Base BaseLemmas Array3 Array3Lemmas Dilate SpecDilate DilateTop DilateRule SpecDilateHalo DilateHalo.
Import ListNotations.
Open Scope Z_scope.

(** ** The six copies, seen from one pixel *)

Definition up (A : bool) (u : Z -> Z) (s : Z) : Z := if (s =? 0) && A then prefer (u 1) (u 0) else u s.
Definition down (B : bool) (u : Z -> Z) (s : Z) : Z := if (s =? 0) && B then prefer (u (-1)) (u 0) else u s.

Definition tree (A0 A1 A2 B0 B1 B2 : bool) (W : Z -> Z -> Z -> Z) : Z :=
  down B2 (fun s2 => down B1 (fun s1 => down B0 (fun s0 =>
    up A2 (fun s2 => up A1 (fun s1 => up A0 (fun s0 => W s0 s1 s2) s0) s1) s2) 0) 0) 0.

Lemma down_ext : forall B f g s, s = -1 \/ s = 0 -> (forall t, t = -1 \/ t = 0 -> f t = g t) -> down B f s = down B g s.
Proof. intros B f g s Hs H. unfold down. destruct ((s =? 0) && B); [|auto]. rewrite !H by auto. reflexivity. Qed.
Lemma up_ext : forall A f g s, s = -1 \/ s = 0 -> (forall t, t = -1 \/ t = 0 \/ t = 1 -> f t = g t) -> up A f s = up A g s.
Proof. intros A f g s Hs H. unfold up. destruct ((s =? 0) && A); [|apply H; lia]. rewrite !H by auto. reflexivity. Qed.

Section Copies.
Variables (n0 n1 n2 k0 k1 k2 : Z) (x y z : Z).
Hypothesis Hx : 0 <= x < n0. Hypothesis Hy : 0 <= y < n1. Hypothesis Hz : 0 <= z < n2.
Let n := (n0, n1, n2). Let k := (k0, k1, k2).

Definition img (s0 s1 s2 : Z) : place := (x + s0 * n0, y + s1 * n1, z + s2 * n2).
Definition Ab (a : axis) : bool := along a (x, y, z) <? above k a.
Definition Be (a : axis) : bool := along a n - below k a <=? along a (x, y, z).

Ltac go := intros u s0 s1 s2 [-> | ->]; unfold from_above, from_below, up, down, Ab, Be, img, n; cbn [along shift];
  [match goal with |- (if ?c then _ else _) = _ => replace c with false by (symmetry; rewrite andb_false_iff; lia) end; cbn; reflexivity|];
  rewrite ?Z.mul_0_l, ?Z.add_0_r; cbn [Z.eqb andb];
  match goal with |- (if ?c then _ else _) = (if ?d then _ else _) => replace c with d; [destruct d; [|reflexivity]|apply eq_true_iff_eq; rewrite ?andb_true_iff, ?Z.ltb_lt, ?Z.leb_le; lia] end;
  f_equal; try (f_equal; apply pair3; lia).

Lemma up0 : forall u s0 s1 s2, s0 = -1 \/ s0 = 0 -> from_above n k Ax0 u (img s0 s1 s2) = up (Ab Ax0) (fun t => u (img t s1 s2)) s0.
Proof. go. Qed.
Lemma up1 : forall u s0 s1 s2, s1 = -1 \/ s1 = 0 -> from_above n k Ax1 u (img s0 s1 s2) = up (Ab Ax1) (fun t => u (img s0 t s2)) s1.
Proof. go. Qed.
Lemma up2 : forall u s0 s1 s2, s2 = -1 \/ s2 = 0 -> from_above n k Ax2 u (img s0 s1 s2) = up (Ab Ax2) (fun t => u (img s0 s1 t)) s2.
Proof. go. Qed.
Lemma down0 : forall u s1 s2, from_below n k Ax0 u (img 0 s1 s2) = down (Be Ax0) (fun t => u (img t s1 s2)) 0.
Proof.
  intros u s1 s2. unfold from_below, down, Be, img, n. cbn [along shift]. rewrite ?Z.mul_0_l, ?Z.add_0_r. cbn [Z.eqb andb].
  match goal with |- (if ?c then _ else _) = (if ?d then _ else _) => replace c with d; [destruct d; [|reflexivity]|apply eq_true_iff_eq; rewrite ?andb_true_iff, ?Z.ltb_lt, ?Z.leb_le; lia] end.
  f_equal; try (f_equal; apply pair3; lia).
Qed.
Lemma down1 : forall u s0 s2, from_below n k Ax1 u (img s0 0 s2) = down (Be Ax1) (fun t => u (img s0 t s2)) 0.
Proof.
  intros u s0 s2. unfold from_below, down, Be, img, n. cbn [along shift]. rewrite ?Z.mul_0_l, ?Z.add_0_r. cbn [Z.eqb andb].
  match goal with |- (if ?c then _ else _) = (if ?d then _ else _) => replace c with d; [destruct d; [|reflexivity]|apply eq_true_iff_eq; rewrite ?andb_true_iff, ?Z.ltb_lt, ?Z.leb_le; lia] end.
  f_equal; try (f_equal; apply pair3; lia).
Qed.
Lemma down2 : forall u s0 s1, from_below n k Ax2 u (img s0 s1 0) = down (Be Ax2) (fun t => u (img s0 s1 t)) 0.
Proof.
  intros u s0 s1. unfold from_below, down, Be, img, n. cbn [along shift]. rewrite ?Z.mul_0_l, ?Z.add_0_r. cbn [Z.eqb andb].
  match goal with |- (if ?c then _ else _) = (if ?d then _ else _) => replace c with d; [destruct d; [|reflexivity]|apply eq_true_iff_eq; rewrite ?andb_true_iff, ?Z.ltb_lt, ?Z.leb_le; lia] end.
  f_equal; try (f_equal; apply pair3; lia).
Qed.

Lemma fold_back_tree : forall u, fold_back n k u (img 0 0 0) =
  tree (Ab Ax0) (Ab Ax1) (Ab Ax2) (Be Ax0) (Be Ax1) (Be Ax2) (fun s0 s1 s2 => u (img s0 s1 s2)).
Proof.
  intros u. unfold fold_back, tree. rewrite down2. apply down_ext; [auto|]. intros s2 H2. rewrite down1. apply down_ext; [auto|]. intros s1 H1.
  rewrite down0. apply down_ext; [auto|]. intros s0 H0. rewrite up2 by exact H2. apply up_ext; [exact H2|]. intros t2 _.
  rewrite up1 by exact H1. apply up_ext; [exact H1|]. intros t1 _. apply up0. exact H0.
Qed.
End Copies.

(** ** The first of twenty-seven *)

Definition order : list place :=
  flat_map (fun s2 => flat_map (fun s1 => map (fun s0 => (s0, s1, s2)) [-1; 0; 1]) [-1; 0; 1]) [-1; 0; 1].

Fixpoint insert (s : place) (l : list place) : list place :=
  match l with [] => [s] | t :: l' => if weight t <? weight s then s :: l else t :: insert s l' end.
Definition ranked : list place := fold_right insert [] order.

Lemma ranked_sorted : StronglySorted (fun a b => weight b < weight a) ranked.
Proof.
  assert (E : exists l, ranked = l) by (eexists; reflexivity). destruct E as [l E]. vm_compute in E. subst l. unfold ranked.
  match goal with |- StronglySorted _ ?l => let l' := eval vm_compute in l in change (StronglySorted (fun a b => weight b < weight a) l') end.
  repeat (constructor; [|repeat (constructor; [vm_compute; reflexivity|]); constructor]). constructor.
Qed.

Lemma ranked_In : forall s, crossing s -> In s ranked.
Proof.
  intros [[a b] c] H. pose proof (H Ax0) as H0. pose proof (H Ax1) as H1. pose proof (H Ax2) as H2. cbn in H0, H1, H2.
  assert (A : a = -1 \/ a = 0 \/ a = 1) by lia. assert (B : b = -1 \/ b = 0 \/ b = 1) by lia. assert (C : c = -1 \/ c = 0 \/ c = 1) by lia.
  clear H H0 H1 H2. destruct A as [-> | [-> | ->]], B as [-> | [-> | ->]], C as [-> | [-> | ->]]; vm_compute; tauto.
Qed.
Lemma In_ranked : forall s, In s ranked -> crossing s.
Proof.
  intros s I. vm_compute in I. repeat (destruct I as [<- | I]; [intros []; cbn; lia|]). destruct I.
Qed.

Definition first (l : list Z) : Z := fold_right prefer 0 l.

Lemma prefer_assoc : forall a b c, prefer (prefer a b) c = prefer a (prefer b c).
Proof. intros a b c. unfold prefer. destruct (a =? 0) eqn:E; [reflexivity|]. rewrite E. reflexivity. Qed.
Lemma prefer_0_l : forall a, prefer 0 a = a. Proof. reflexivity. Qed.
Lemma prefer_0_r : forall a, prefer a 0 = a. Proof. intros a. unfold prefer. destruct (a =? 0) eqn:E; lia. Qed.

Lemma first_max : forall (g : place -> Z) l s, StronglySorted (fun a b => weight b < weight a) l -> In s l -> g s <> 0 ->
  (forall t, In t l -> weight s < weight t -> g t = 0) -> first (map g l) = g s.
Proof.
  intros g l s S. induction S as [|t l S IH F]; intros I N M; [destruct I|]. cbn [map first fold_right].
  destruct I as [-> | I].
  - unfold prefer. destruct (g s =? 0) eqn:E; lia.
  - rewrite Forall_forall in F. rewrite (M t (or_introl eq_refl) (F s I)), prefer_0_l. apply IH; auto. intros t' I' L. apply M; [right; exact I'|exact L].
Qed.
Lemma first_none : forall (g : place -> Z) l, (forall t, In t l -> g t = 0) -> first (map g l) = 0.
Proof. intros g l H. induction l as [|t l IH]; [reflexivity|]. cbn [map first fold_right]. rewrite (H t (or_introl eq_refl)), prefer_0_l. apply IH. intros u I. apply H. right. exact I. Qed.

Lemma tree_first : forall A0 A1 A2 B0 B1 B2 W,
  (A0 = false -> forall s1 s2, W 1 s1 s2 = 0) -> (A1 = false -> forall s0 s2, W s0 1 s2 = 0) -> (A2 = false -> forall s0 s1, W s0 s1 1 = 0) ->
  (B0 = false -> forall s1 s2, W (-1) s1 s2 = 0) -> (B1 = false -> forall s0 s2, W s0 (-1) s2 = 0) -> (B2 = false -> forall s0 s1, W s0 s1 (-1) = 0) ->
  tree A0 A1 A2 B0 B1 B2 W = first (map (fun s => let '(s0, s1, s2) := s in W s0 s1 s2) ranked).
Proof.
  intros A0 A1 A2 B0 B1 B2 W HA0 HA1 HA2 HB0 HB1 HB2.
  match goal with |- _ = first (map ?g ranked) => let l := eval vm_compute in ranked in change (first (map g ranked)) with (first (map g l)) end.
  cbn [map first fold_right].
  unfold tree, up, down. cbn [Z.eqb andb].
  destruct A0, A1, A2, B0, B1, B2; cbn [Z.eqb andb];
  first [specialize (HA0 eq_refl) | clear HA0]; first [specialize (HA1 eq_refl) | clear HA1]; first [specialize (HA2 eq_refl) | clear HA2]; first [specialize (HB0 eq_refl) | clear HB0]; first [specialize (HB1 eq_refl) | clear HB1]; first [specialize (HB2 eq_refl) | clear HB2];
  try rewrite !HA0; try rewrite !HA1; try rewrite !HA2; try rewrite !HB0; try rewrite !HB1; try rewrite !HB2;
  rewrite ?prefer_assoc, ?prefer_0_l, ?prefer_0_r; reflexivity.
Qed.

(** ** One pass *)

Lemma tiled_image : forall n0 n1 n2 f x y z s0 s1 s2, 1 <= n0 -> 1 <= n1 -> 1 <= n2 ->
  tiled (n0, n1, n2) f (img n0 n1 n2 x y z s0 s1 s2) = tiled (n0, n1, n2) f (x, y, z).
Proof. intros n0 n1 n2 f x y z s0 s1 s2 H0 H1 H2. unfold tiled, img. cbn [along]. rewrite !Z.mod_add by lia. reflexivity. Qed.

Lemma image_of_img : forall n0 n1 n2 x y z s0 s1 s2, image_of (n0, n1, n2) (s0, s1, s2) (x, y, z) = img n0 n1 n2 x y z s0 s1 s2.
Proof. reflexivity. Qed.

Lemma in_pixels : forall n q, In q (pixels n) <-> in_image n q.
Proof.
  intros [[n0 n1] n2] [[x y] z]. rewrite pixels_loop, loop3_In. unfold in_image. split.
  - intros (A & B & C) []; cbn; lia.
  - intros H. exact (conj (H Ax0) (conj (H Ax1) (H Ax2))).
Qed.

Section One.
Variables (n0 n1 n2 k0 k1 k2 : Z) (kv iterations f : list Z) (x y z : Z).
Hypothesis Pn : 1 <= n0 /\ 1 <= n1 /\ 1 <= n2.
Hypothesis Pk : 1 <= k0 /\ 1 <= k1 /\ 1 <= k2.
Hypothesis Hq : 0 <= x < n0 /\ 0 <= y < n1 /\ 0 <= z < n2.
Let n := (n0, n1, n2). Let k := (k0, k1, k2). Let v := tiled n f. Let q := (x, y, z).
Hypothesis Hv : v q = 0.
Local Notation Img := (img n0 n1 n2 x y z).
Let W (s0 s1 s2 : Z) := spread n k kv iterations 0 v (Img s0 s1 s2).

Lemma W_last : forall s0 s1 s2, W s0 s1 s2 = last (map v (filter (fun p => gives k kv iterations 0 v p (Img s0 s1 s2)) (pixels n))) 0.
Proof. intros s0 s1 s2. unfold W, spread. unfold v at 1, n at 1. rewrite tiled_image by lia. fold n v q. rewrite Hv. reflexivity. Qed.

Lemma gives_passes : forall p s0 s1 s2, crossing (s0, s1, s2) -> In p (pixels n) -> gives k kv iterations 0 v p (Img s0 s1 s2) = true ->
  passes_to n k kv iterations v p (s0, s1, s2) q.
Proof.
  intros p s0 s1 s2 C I G. unfold gives in G. rewrite !andb_true_iff, negb_true_iff, Z.eqb_neq, Z.ltb_lt in G. destruct G as ((G1 & G2) & G3).
  split; [apply in_pixels; exact I|]. split; [exact C|]. split; [exact G1|]. split; [exact G2|exact G3].
Qed.
Lemma passes_gives : forall p s0 s1 s2, passes_to n k kv iterations v p (s0, s1, s2) q ->
  crossing (s0, s1, s2) /\ In p (pixels n) /\ gives k kv iterations 0 v p (Img s0 s1 s2) = true.
Proof.
  intros p s0 s1 s2 (A & B & C & D & E). split; [exact B|]. split; [apply in_pixels; exact A|]. unfold gives.
  rewrite !andb_true_iff, negb_true_iff, Z.eqb_neq, Z.ltb_lt. split; [split; [exact C|exact D]|exact E].
Qed.

Lemma covers_near : forall p r a, In p (pixels n) -> covers k kv p r = true -> - below k a <= along a r < along a n + above k a.
Proof.
  intros p r a I C. apply in_pixels in I. specialize (I a). unfold covers in C. rewrite !andb_true_iff, !Z.leb_le, !Z.ltb_lt in C.
  destruct C as ((((A0 & A1) & (B0 & B1)) & (C0 & C1)) & _).
  assert (X : along a k <= below k a + above k a + 1).
  { unfold below, above. destruct a; cbn [along k]; Z.to_euclidean_division_equations; lia. }
  destruct a; lia.
Qed.

Lemma W_far : forall s0 s1 s2 a, ~ - below k a <= along a (Img s0 s1 s2) < along a n + above k a -> W s0 s1 s2 = 0.
Proof.
  intros s0 s1 s2 a H. rewrite W_last, filter_nil; [reflexivity|]. intros p I. destruct (gives _ _ _ _ _ _ _) eqn:G; [|reflexivity].
  exfalso. apply H. unfold gives in G. rewrite !andb_true_iff in G. exact (covers_near p _ a I (proj2 G)).
Qed.

Lemma pass_first : fold_back n k (spread n k kv iterations 0 v) q = first (map (fun s => let '(s0, s1, s2) := s in W s0 s1 s2) ranked).
Proof.
  assert (E : q = Img 0 0 0) by (unfold q, img; apply pair3; lia). rewrite E. unfold n, k. rewrite fold_back_tree by lia. fold n k. 
  change (fun s0 s1 s2 : Z => spread n k kv iterations 0 v (Img s0 s1 s2)) with W.
  apply tree_first; unfold Ab, Be; cbn [along]; fold n k; rewrite ?Z.ltb_ge, ?Z.leb_gt; intros F s t;
  [apply W_far with (a := Ax0)|apply W_far with (a := Ax1)|apply W_far with (a := Ax2)|apply W_far with (a := Ax0)|apply W_far with (a := Ax1)|apply W_far with (a := Ax2)];
  unfold img; unfold n in F |- *; cbn [along] in F |- *; lia.
Qed.

Lemma one_none : (forall p s, ~ passes_to n k kv iterations v p s q) -> fold_back n k (spread n k kv iterations 0 v) q = 0.
Proof.
  intros H. rewrite pass_first. apply first_none. intros [[s0 s1] s2] I. apply In_ranked in I. rewrite W_last, filter_nil; [reflexivity|].
  intros p J. destruct (gives _ _ _ _ _ _ _) eqn:G; [|reflexivity]. exfalso. exact (H _ _ (gives_passes p s0 s1 s2 I J G)).
Qed.

Lemma one_some : forall p s, passes_to n k kv iterations v p s q ->
  (forall p' s', passes_to n k kv iterations v p' s' q -> weight s' < weight s \/ s' = s /\ (p' = p \/ later p p')) ->
  fold_back n k (spread n k kv iterations 0 v) q = v p.
Proof.
  intros p [[s0 s1] s2] D M. rewrite pass_first. destruct (passes_gives _ _ _ _ D) as (C & I & G).
  assert (E : W s0 s1 s2 = v p).
  { rewrite W_last. apply last_filter_sorted; auto.
    - unfold n. rewrite pixels_loop. apply sorted_loop3.
    - intros p' I' G'. destruct (M _ _ (gives_passes p' s0 s1 s2 C I' G')) as [L|[_ [-> | L]]]; [lia|auto|]. right.
      destruct p as [[a b] c], p' as [[a' b'] c']. exact L. }
  rewrite <- E. apply (first_max (fun s => let '(s0, s1, s2) := s in W s0 s1 s2) ranked (s0, s1, s2)).
  - apply ranked_sorted.
  - apply ranked_In. exact C.
  - rewrite E. destruct D as (_ & _ & D & _). exact D.
  - intros [[t0 t1] t2] J L. apply In_ranked in J. rewrite W_last, filter_nil; [reflexivity|].
    intros p' I'. match goal with |- ?t = false => destruct t eqn:G' end; [|reflexivity]. exfalso.
    destruct (M _ _ (gives_passes p' t0 t1 t2 J I' G')) as [L'|[E' _]]; [lia|]. rewrite E' in L. lia.
Qed.
End One.

(** A labelled pixel keeps its label in the first pass: so do its periodic images. *)
Lemma one_kept : forall n0 n1 n2 k0 k1 k2 kv iterations f x y z, 1 <= n0 /\ 1 <= n1 /\ 1 <= n2 ->
  0 <= x < n0 /\ 0 <= y < n1 /\ 0 <= z < n2 -> let v := tiled (n0, n1, n2) f in v (x, y, z) <> 0 ->
  fold_back (n0, n1, n2) (k0, k1, k2) (spread (n0, n1, n2) (k0, k1, k2) kv iterations 0 v) (x, y, z) = v (x, y, z).
Proof.
  intros n0 n1 n2 k0 k1 k2 kv iterations f x y z Pn Hq v Hv.
  assert (E : (x, y, z) = img n0 n1 n2 x y z 0 0 0) by (unfold img; apply pair3; lia). rewrite E at 1. rewrite fold_back_tree by lia.
  assert (U : forall s0 s1 s2, spread (n0, n1, n2) (k0, k1, k2) kv iterations 0 v (img n0 n1 n2 x y z s0 s1 s2) = v (x, y, z)).
  { intros s0 s1 s2. unfold spread. assert (T : v (img n0 n1 n2 x y z s0 s1 s2) = v (x, y, z)) by (apply tiled_image; lia). rewrite T.
    destruct (v (x, y, z) =? 0) eqn:Ez; [lia|reflexivity]. }
  assert (PP : forall u, prefer u u = u) by (intros u; unfold prefer; destruct (u =? 0); reflexivity).
  unfold tree, up, down. rewrite !U, !PP.
  repeat match goal with |- context [if ?c then _ else _] => destruct c end; rewrite ?PP; reflexivity.
Qed.

Lemma one_pass : forall asrt shape f ks kv iterations, dilatable true shape f ks kv iterations -> (forall m, In m iterations -> m <= 1) ->
  let n := triple shape in let k := triple ks in let v := tiled n f in
  exists r, dilate asrt shape f ks kv iterations true = Ok (map r (pixels n)) /\ forall q, in_image n q ->
    (v q <> 0 -> r q = v q) /\
    (v q = 0 -> (forall p s, ~ passes_to n k kv iterations v p s q) -> r q = 0) /\
    (forall p s, v q = 0 -> passes_to n k kv iterations v p s q ->
      (forall p' s', passes_to n k kv iterations v p' s' q -> weight s' < weight s \/ s' = s /\ (p' = p \/ later p p')) -> r q = v p).
Proof.
  intros asrt shape f ks kv iterations HD H1 n k v. destruct (halo_ok asrt shape f ks kv iterations HD) as (m & Hin & Hmax & E).
  fold n k v in E. exists (passes n k kv iterations m v). split; [exact E|].
  destruct HD as (Hrank & (Hpos & Lf) & HL & (Kpos & Lk) & Hk01 & Hfit & Hit & Hnn & Hlab).
  destruct (shape3_len shape Hrank) as (n0 & n1 & n2 & Hs). destruct (shape3_len ks ltac:(lia)) as (k0 & k1 & k2 & Hk).
  pose proof (shape3_pos _ _ _ _ Hs Hpos) as Pn. pose proof (shape3_kernel _ _ _ _ Hk Kpos) as Pk.
  assert (En : n = (n0, n1, n2)) by exact (shape3_triple _ _ _ _ Hs). assert (Ek : k = (k0, k1, k2)) by exact (shape3_triple _ _ _ _ Hk).
  intros [[x y] z] Hq.
  assert (Q : 0 <= x < n0 /\ 0 <= y < n1 /\ 0 <= z < n2).
  { rewrite En in Hq. exact (conj (Hq Ax0) (conj (Hq Ax1) (Hq Ax2))). }
  pose proof (H1 _ Hin) as M1. destruct m as [|[|m]]; [| |lia].
  - (* no pass: nothing passes a label on *)
    cbn [passes]. split; [auto|]. split; [auto|]. intros p s _ (_ & _ & N & D & _) _. exfalso.
    assert (X : zn iterations (v p) <= 0).
    { destruct (Z_lt_le_dec (zn iterations (v p)) 0); [lia|]. destruct (in_dec Z.eq_dec (zn iterations (v p)) iterations) as [I|I]; [exact (Hmax _ I)|].
      unfold zn in I |- *. destruct (Nat.lt_ge_cases (Z.to_nat (v p)) (length iterations)) as [L|L]; [exfalso; apply I; apply nth_In; exact L|].
      rewrite nth_overflow by exact L. lia. }
    lia.
  - cbn [passes]. change (Z.of_nat 0) with 0. unfold v. rewrite En, Ek. clear E. split; [|split].
    + intros Hv. apply (one_kept n0 n1 n2 k0 k1 k2 kv iterations f x y z Pn Q). exact Hv.
    + intros Hv H. apply (one_none n0 n1 n2 k0 k1 k2 kv iterations f x y z Pn Q Hv). exact H.
    + intros p s Hv D M. apply (one_some n0 n1 n2 k0 k1 k2 kv iterations f x y z Pn Q Hv p s D M).
Qed.
