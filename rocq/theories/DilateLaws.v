(** * DilateLaws: dilation of unions, mirrored and transposed images, and its adjoint. *)

From Coq Require Import ZArith List Bool Lia.
From Verif Require Import Base BaseLemmas Cluster Kernel SpecCluster ClusterGeom ClusterMain Dilate SpecDilate DilateTop
  SpecSymmetry DerivedCluster DerivedDilate SpecDilateLaws.
Import ListNotations.
Open Scope Z_scope.

(** ** Unions *)
Lemma reaches_union : forall (adj : Z -> Z -> Prop) (S A B : Z -> Prop), (forall x, S x <-> A x \/ B x) ->
  forall k p, reaches adj S k p <-> reaches adj A k p \/ reaches adj B k p.
Proof.
  intros adj S A B H k p. split.
  - intro R. induction R as [k p Hk Hp|k p q R IH E].
    + apply H in Hp. destruct Hp; [left|right]; now constructor.
    + destruct IH; [left|right]; eapply reaches_step; eauto.
  - intros [R|R]; (eapply reaches_mono; [|  |exact R]); [auto|intros; apply H; auto|auto|intros; apply H; auto].
Qed.

Lemma dilate_union : forall asrt shape f g h ks kv n per, dilatable_n per shape f ks kv -> dilatable_n per shape g ks kv ->
  dilatable_n per shape h ks kv -> 0 <= n ->
  (forall p, pixel shape p -> (zn h p <> 0 <-> zn f p <> 0 \/ zn g p <> 0)) ->
  exists a b c, dilate_n asrt shape f ks kv n per = Ok a /\ dilate_n asrt shape g ks kv n per = Ok b /\
    dilate_n asrt shape h ks kv n per = Ok c /\
    forall p, pixel shape p -> (zn c p <> 0 <-> zn a p <> 0 \/ zn b p <> 0).
Proof.
  intros asrt shape f g h ks kv n per Hf Hg Hh Hn HU.
  destruct (dilate_n_ok asrt _ _ _ _ n _ Hf Hn) as (a & Ea & _ & Ra).
  destruct (dilate_n_ok asrt _ _ _ _ n _ Hg Hn) as (b & Eb & _ & Rb).
  destruct (dilate_n_ok asrt _ _ _ _ n _ Hh Hn) as (c & Ec & _ & Rc).
  exists a, b, c. do 3 (split; [assumption|]). intros p Hp. rewrite Ra, Rb, Rc by assumption. apply reaches_union.
  intros x. split; [intros [P Q]; apply HU in Q; tauto|intros [[P Q]|[P Q]]; split; auto; apply HU; auto].
Qed.

(** ** Kernels *)
Lemma step_kernel : forall per shape ks kv kv' p q, (forall r, pixel ks r -> zn kv r = 1 -> zn kv' r = 1) ->
  kernel_step per shape ks kv p q -> kernel_step per shape ks kv' p q.
Proof.
  intros per shape ks kv kv' p q H (Pp & Pq & d & (r & Pr & V & M) & D). split; [exact Pp|]. split; [exact Pq|]. exists d. split; [|exact D].
  exists r. auto.
Qed.

Lemma dilate_kernel_mono : forall asrt shape f ks kv kv' n per, dilatable_n per shape f ks kv -> dilatable_n per shape f ks kv' -> 0 <= n ->
  (forall r, pixel ks r -> zn kv r = 1 -> zn kv' r = 1) ->
  exists a b, dilate_n asrt shape f ks kv n per = Ok a /\ dilate_n asrt shape f ks kv' n per = Ok b /\
    forall p, pixel shape p -> zn a p <> 0 -> zn b p <> 0.
Proof.
  intros asrt shape f ks kv kv' n per H H' Hn HK.
  destruct (dilate_n_ok asrt _ _ _ _ n _ H Hn) as (a & Ea & _ & Ra).
  destruct (dilate_n_ok asrt _ _ _ _ n _ H' Hn) as (b & Eb & _ & Rb).
  exists a, b. do 2 (split; [assumption|]). intros p Hp. rewrite Ra, Rb by assumption. apply reaches_mono; [|auto].
  intros x y. now apply step_kernel.
Qed.

Lemma reaches_one : forall adj S p, reaches adj S 1 p <-> S p \/ exists x, S x /\ adj x p.
Proof.
  intros adj S p. split.
  - intro R. inversion R as [? ? ? H|k x q R' E Ek]; subst; [auto|]. replace k with 0 in R' by lia. apply reaches_zero in R'. eauto.
  - intros [H|(x & H & E)]; [now constructor|]. change 1 with (0 + 1). eapply reaches_step; [|exact E]. now constructor.
Qed.

Lemma dilate_kernel_union : forall asrt shape f ks kv kv' kw per, dilatable_n per shape f ks kv -> dilatable_n per shape f ks kv' -> dilatable_n per shape f ks kw ->
  (forall r, pixel ks r -> (zn kw r = 1 <-> zn kv r = 1 \/ zn kv' r = 1)) ->
  exists a b c, dilate_n asrt shape f ks kv 1 per = Ok a /\ dilate_n asrt shape f ks kv' 1 per = Ok b /\ dilate_n asrt shape f ks kw 1 per = Ok c /\
    forall p, pixel shape p -> (zn c p <> 0 <-> zn a p <> 0 \/ zn b p <> 0).
Proof.
  intros asrt shape f ks kv kv' kw per H H' H'' HK.
  destruct (dilate_n_ok asrt _ _ _ _ 1 _ H ltac:(lia)) as (a & Ea & _ & Ra).
  destruct (dilate_n_ok asrt _ _ _ _ 1 _ H' ltac:(lia)) as (b & Eb & _ & Rb).
  destruct (dilate_n_ok asrt _ _ _ _ 1 _ H'' ltac:(lia)) as (c & Ec & _ & Rc).
  exists a, b, c. do 3 (split; [assumption|]). intros p Hp. rewrite Ra, Rb, Rc, !reaches_one by assumption. split.
  - intros [X|(x & X & E)]; [tauto|]. destruct E as (P1 & P2 & d & (r & Pr & V & M) & D). apply HK in V; [|exact Pr].
    destruct V as [V|V]; [left|right]; right; exists x; (split; [exact X|]); (split; [exact P1|]); (split; [exact P2|]); exists d; (split; [|exact D]); exists r; auto.
  - intros [[X|(x & X & E)]|[X|(x & X & E)]]; [tauto| |tauto|]; right; exists x; (split; [exact X|]); (eapply step_kernel; [|exact E]); intros r Pr V; apply HK; auto.
Qed.

(** ** Moved images *)
Lemma dilate_matched : forall asrt shape shape' f f' ks ks' kv kv' n per T, dilatable_n per shape f ks kv -> dilatable_n per shape' f' ks' kv' ->
  0 <= n -> matching shape shape' T -> carried T f f' ->
  (forall x x' y y', T x x' -> T y y' -> (kernel_step per shape ks kv x y <-> kernel_step per shape' ks' kv' x' y')) ->
  exists a b, dilate_n asrt shape f ks kv n per = Ok a /\ dilate_n asrt shape' f' ks' kv' n per = Ok b /\
    forall p p', T p p' -> (zn a p <> 0 <-> zn b p' <> 0).
Proof.
  intros asrt shape shape' f f' ks ks' kv kv' n per T H H' Hn (T0 & T1 & T2 & T3 & T4) HC0 HK. pose proof (carried_zn _ _ _ HC0) as HC.
  destruct (dilate_n_ok asrt _ _ _ _ n _ H Hn) as (a & Ea & _ & Ra).
  destruct (dilate_n_ok asrt _ _ _ _ n _ H' Hn) as (b & Eb & _ & Rb).
  exists a, b. split; [exact Ea|]. split; [exact Eb|]. intros p p' HT. destruct (T0 _ _ HT) as [Pp Pp']. rewrite Ra, Rb by assumption.
  split; intros X.
  - eapply (reaches_map _ _ _ _ (pixel shape) T); try exact X; auto.
    + intros x y (A1 & A2 & _); auto.
    + intros x [A1 _]; auto.
    + intros x x' y y' A B. apply HK; auto.
    + intros x x' A [B1 B2]. split; [apply (T0 _ _ A)|]. rewrite (HC _ _ A). auto.
  - eapply (reaches_map _ _ _ _ (pixel shape') (fun a b => T b a)); try exact X; auto.
    + intros x y (A1 & A2 & _); auto.
    + intros x [A1 _]; auto.
    + intros x x' y y' A B. apply HK; auto.
    + intros x x' A [B1 B2]. split; [apply (T0 _ _ A)|]. rewrite <- (HC _ _ A). auto.
    + intros x x' x'' A B. eapply T4; eauto.
Qed.

(** *** Flipping *)
Fixpoint negate (which : list bool) (d : list Z) : list Z :=
  match which, d with
  | w :: which', t :: d' => (if w then - t else t) :: negate which' d'
  | _, _ => []
  end.

Lemma moved_flipped : forall per which shape a d b a' b', inside shape a -> flipped which shape a a' -> flipped which shape b b' ->
  moved per shape a d b -> moved per shape a' (negate which d) b'.
Proof.
  intros per. induction which as [|w which IH]; intros [|n shape] [|x a] [|t d] [|y b] [|x' a'] [|y' b']; cbn [inside flipped moved negate]; try tauto.
  intros [Hx Ha] [-> Fa] [-> Fb] [E M]. split; [|eapply IH; eauto]. destruct w.
  - destruct per; [|lia]. subst y. apply (Z.mod_unique_pos _ n (- ((x + t) / n))).
    + pose proof (Z.mod_pos_bound (x + t) n). lia.
    + pose proof (Z.div_mod (x + t) n). lia.
  - exact E.
Qed.

Lemma Forall2_len : forall {A B} (P : A -> B -> Prop) l l', Forall2 P l l' -> length l = length l'.
Proof. intros A B P l l' H. induction H; cbn; congruence. Qed.

Lemma anchor_flipped : forall which ks, odd_on which ks -> flipped which ks (anchor ks) (anchor ks).
Proof.
  intros which ks H. unfold anchor. induction H as [|w n which ks E H IH]; cbn [map flipped]; [exact I|]. split; [|exact IH].
  destruct w; [|reflexivity]. specialize (E eq_refl). pose proof (Z.div_mod n 2). pose proof (Z.div_mod (n - 1) 2). pose proof (Z.mod_pos_bound (n - 1) 2). lia.
Qed.

Lemma anchor_inside : forall ks, Forall (fun n => 0 < n) ks -> inside ks (anchor ks).
Proof.
  intros ks H. unfold anchor. induction H as [|n ks Hn H IH]; cbn [map inside]; [exact I|]. split; [|exact IH].
  split; [apply Z.div_pos; lia|]. apply Z.div_lt_upper_bound; lia.
Qed.

Lemma kernel_pos : forall ks kv, kernel ks kv -> Forall (fun n => 0 < n) ks.
Proof. intros ks kv [H _]. eapply Forall_impl; [|exact H]. cbn. lia. Qed.

Lemma offset_flipped : forall which ks kv kv' d, Forall (fun n => 0 < n) ks -> odd_on which ks ->
  (forall r r', flips which ks r r' -> zn kv' r' = zn kv r) -> kernel_offset ks kv d -> kernel_offset ks kv' (negate which d).
Proof.
  intros which ks kv kv' d HP HO HC (r & Pr & V & M).
  pose proof (Forall2_len _ _ _ HO) as LW.
  destruct (flipped_total which ks (coords ks r)) as (c & Hc & F); [now apply coords_inside|exact LW|].
  destruct (pixel_of_coords ks c Hc) as (r' & Pr' & <-). exists r'. split; [exact Pr'|].
  split; [rewrite (HC r r'); [exact V|split; auto]|].
  eapply moved_flipped; [|exact (anchor_flipped which ks HO)|exact F|exact M]. now apply anchor_inside.
Qed.

Lemma step_flipped : forall per which shape ks kv kv' x x' y y', Forall (fun n => 0 < n) shape -> Forall (fun n => 0 < n) ks -> odd_on which ks ->
  (forall r r', flips which ks r r' -> zn kv' r' = zn kv r) -> flips which shape x x' -> flips which shape y y' ->
  kernel_step per shape ks kv x y -> kernel_step per shape ks kv' x' y'.
Proof.
  intros per which shape ks kv kv' x x' y y' HS HP HO HC (A0 & A1 & A2) (B0 & B1 & B2) (C1 & C2 & d & K & M).
  split; [exact A1|]. split; [exact B1|]. exists (negate which d). split; [now apply (offset_flipped which ks kv)|].
  eapply moved_flipped; [|exact A2|exact B2|exact M]. now apply coords_inside.
Qed.

Lemma flips_sym : forall which shape p q, flips which shape p q -> flips which shape q p.
Proof. intros which shape p q (A & B & C). split; [exact B|]. split; [exact A|]. now apply flipped_sym. Qed.

Lemma dilate_flip : forall asrt shape f f' ks kv kv' n per which, dilatable_n per shape f ks kv -> dilatable_n per shape f' ks kv' ->
  odd_on which ks -> 0 <= n -> carried (flips which shape) f f' -> carried (flips which ks) kv kv' ->
  exists a b, dilate_n asrt shape f ks kv n per = Ok a /\ dilate_n asrt shape f' ks kv' n per = Ok b /\
    forall p p', flips which shape p p' -> (zn a p <> 0 <-> zn b p' <> 0).
Proof.
  intros asrt shape f f' ks kv kv' n per which H H' HO Hn HC HK. pose proof (carried_zn _ _ _ HK) as HZ.
  pose proof H as (_ & (HI & _) & LK & HKer & _). pose proof (image_pos _ HI) as HS. pose proof (kernel_pos _ _ HKer) as HP.
  pose proof (Forall2_len _ _ _ HO) as LW.
  apply dilate_matched; auto. { apply flips_matching; [auto|congruence]. }
  intros x x' y y' A B. split.
  - now apply (step_flipped per which shape ks kv kv' x x' y y').
  - apply (step_flipped per which shape ks kv' kv x' x y' y); auto using flips_sym. intros r r' F. symmetry. apply HZ. now apply flips_sym.
Qed.

(** *** Transposing *)
Lemma moved_app : forall per s a d b s' a' d' b', moved per s a d b -> moved per s' a' d' b' -> moved per (s ++ s') (a ++ a') (d ++ d') (b ++ b').
Proof.
  intros per. induction s as [|n s IH]; intros [|x a] [|t d] [|y b] s' a' d' b'; cbn [moved app]; try tauto. intros [E M] M'. split; [exact E|]. now apply IH.
Qed.

Lemma moved_rev : forall per s a d b, moved per s a d b -> moved per (rev s) (rev a) (rev d) (rev b).
Proof.
  intros per. induction s as [|n s IH]; intros [|x a] [|t d] [|y b]; cbn [moved rev]; try tauto. intros [E M]. apply moved_app; [now apply IH|].
  cbn [moved]. auto.
Qed.

Lemma anchor_rev : forall ks, anchor (rev ks) = rev (anchor ks).
Proof. intros. unfold anchor. apply map_rev. Qed.

Lemma offset_rev : forall ks kv kv' d, Forall (fun n => 0 < n) ks -> (forall r r', transposes ks r r' -> zn kv' r' = zn kv r) ->
  kernel_offset ks kv d -> kernel_offset (rev ks) kv' (rev d).
Proof.
  intros ks kv kv' d HP HC (r & Pr & V & M). destruct (transposes_total ks r (fun _ _ => HP) Pr) as (r' & T).
  exists r'. split; [apply T|]. split; [rewrite (HC r r' T); exact V|]. rewrite anchor_rev. destruct T as (_ & _ & ->). now apply moved_rev.
Qed.

Lemma step_rev : forall per shape ks kv kv' x x' y y', Forall (fun n => 0 < n) ks ->
  (forall r r', transposes ks r r' -> zn kv' r' = zn kv r) -> transposes shape x x' -> transposes shape y y' ->
  kernel_step per shape ks kv x y -> kernel_step per (rev shape) (rev ks) kv' x' y'.
Proof.
  intros per shape ks kv kv' x x' y y' HP HC (A0 & A1 & A2) (B0 & B1 & B2) (C1 & C2 & d & K & M).
  split; [exact A1|]. split; [exact B1|]. exists (rev d). split; [now apply (offset_rev ks kv)|]. rewrite A2, B2. now apply moved_rev.
Qed.

Lemma dilate_transpose : forall asrt shape f f' ks kv kv' n per, dilatable_n per shape f ks kv -> dilatable_n per (rev shape) f' (rev ks) kv' ->
  0 <= n -> carried (transposes shape) f f' -> carried (transposes ks) kv kv' ->
  exists a b, dilate_n asrt shape f ks kv n per = Ok a /\ dilate_n asrt (rev shape) f' (rev ks) kv' n per = Ok b /\
    forall p p', transposes shape p p' -> (zn a p <> 0 <-> zn b p' <> 0).
Proof.
  intros asrt shape f f' ks kv kv' n per H H' Hn HC HK. pose proof (carried_zn _ _ _ HK) as HZ.
  pose proof H as (_ & (HI & _) & LK & HKer & _). pose proof (image_pos _ HI) as HS. pose proof (kernel_pos _ _ HKer) as HP.
  apply dilate_matched; auto. { apply transposes_matching. auto. }
  intros x x' y y' A B. split.
  - now apply (step_rev per shape ks kv kv').
  - intro K. apply (step_rev per (rev shape) (rev ks) kv' kv x' x y' y) in K.
    + now rewrite !rev_involutive in K.
    + now apply Forall_rev.
    + intros r r' T. apply transposes_sym in T. rewrite rev_involutive in T. symmetry. now apply HZ.
    + now apply transposes_sym.
    + now apply transposes_sym.
Qed.

(** ** The adjoint *)
Lemma reaches_back : forall (adj adj' : Z -> Z -> Prop) (S : Z -> Prop), (forall x y, adj x y -> adj' y x) ->
  forall k q, reaches adj S k q -> exists p, S p /\ reaches adj' (eq q) k p.
Proof.
  intros adj adj' S H k q R. induction R as [k p Hk Hp|k p q R (s & Hs & IH) E].
  - exists p. split; [exact Hp|]. now constructor.
  - exists s. split; [exact Hs|]. rewrite Z.add_comm. apply reaches_compose; [lia|]. eapply reaches_mono; [intros ? ? X; exact X| |exact IH].
    intros x <-. apply reaches_one. right. exists q. auto.
Qed.

Lemma negate_all : forall d, negate (map (fun _ => true) d) d = map Z.opp d.
Proof. induction d as [|t d IH]; cbn; [reflexivity|]. now rewrite IH. Qed.

Lemma moved_lengths : forall per s a d b, moved per s a d b -> length d = length s.
Proof. intros per. induction s as [|n s IH]; intros [|x a] [|t d] [|y b]; cbn; try tauto. intros [_ M]. f_equal. eauto. Qed.

Lemma step_back : forall per shape ks kv kv' x y, Forall (fun n => 0 < n) shape -> Forall (fun n => 0 < n) ks -> (forall n, In n ks -> n mod 2 = 1) ->
  (forall r r', flips (every_axis ks) ks r r' -> zn kv' r' = zn kv r) ->
  kernel_step per shape ks kv x y -> kernel_step per shape ks kv' y x.
Proof.
  intros per shape ks kv kv' x y HS HP HO HC (C1 & C2 & d & K & M). split; [exact C2|]. split; [exact C1|]. exists (map Z.opp d). split.
  - assert (L : length d = length ks) by (destruct K as (r & _ & _ & MK); now apply moved_lengths in MK).
    apply (offset_flipped (map (fun _ => true) ks) ks kv kv') in K; auto.
    + replace (map (fun _ : Z => true) ks) with (map (fun _ : Z => true) d) in K; [now rewrite negate_all in K|].
      clear -L. revert ks L. induction d as [|t d IH]; intros [|k ks]; cbn; try discriminate; [reflexivity|]. intro L. f_equal. apply IH. lia.
    + unfold odd_on. clear -HO. induction ks as [|k ks IH]; cbn; constructor; [intros _; apply HO; now left|]. apply IH. intros n H. apply HO. now right.
  - apply moved_sym; auto; now apply coords_inside.
Qed.

Lemma dilate_adjoint : forall asrt shape f g ks kv kv' n per, dilatable_n per shape f ks kv -> dilatable_n per shape g ks kv' ->
  (forall k, In k ks -> k mod 2 = 1) -> 0 <= n -> carried (flips (every_axis ks) ks) kv kv' ->
  exists a b, dilate_n asrt shape f ks kv n per = Ok a /\ dilate_n asrt shape g ks kv' n per = Ok b /\
    ((exists p, pixel shape p /\ zn a p <> 0 /\ zn g p <> 0) <-> (exists p, pixel shape p /\ zn f p <> 0 /\ zn b p <> 0)).
Proof.
  intros asrt shape f g ks kv kv' n per H H' HO Hn HK. pose proof (carried_zn _ _ _ HK) as HZ.
  pose proof H as (_ & (HI & _) & LK & HKer & _). pose proof (image_pos _ HI) as HS. pose proof (kernel_pos _ _ HKer) as HP.
  destruct (dilate_n_ok asrt _ _ _ _ n _ H Hn) as (a & Ea & _ & Ra).
  destruct (dilate_n_ok asrt _ _ _ _ n _ H' Hn) as (b & Eb & _ & Rb).
  exists a, b. split; [exact Ea|]. split; [exact Eb|]. split.
  - intros (p & Pp & A & G). apply Ra in A; [|exact Pp].
    destruct (reaches_back _ (kernel_step per shape ks kv') _ (fun x y => step_back per shape ks kv kv' x y HS HP HO HZ) _ _ A) as (s & (Ps & Fs) & R').
    exists s. split; [exact Ps|]. split; [exact Fs|]. apply Rb; [exact Ps|]. eapply reaches_mono; [intros ? ? X; exact X| |exact R']. intros x <-. auto.
  - intros (p & Pp & F & B). apply Rb in B; [|exact Pp].
    assert (HZ' : forall r r', flips (every_axis ks) ks r r' -> zn kv r' = zn kv' r).
    { intros r r' X. symmetry. apply HZ. now apply flips_sym. }
    destruct (reaches_back _ (kernel_step per shape ks kv) _ (fun x y => step_back per shape ks kv' kv x y HS HP HO HZ') _ _ B) as (s & (Ps & Gs) & R').
    exists s. split; [exact Ps|]. split; [|exact Gs]. apply Ra; [exact Ps|]. eapply reaches_mono; [intros ? ? X; exact X| |exact R']. intros x <-. auto.
Qed.

Lemma flip_even_refuted : exists shape f f' ks kv kv' n per which a b p p', dilatable_n per shape f ks kv /\ dilatable_n per shape f' ks kv' /\
  length which = length ks /\ carried (flips which shape) f f' /\ carried (flips which ks) kv kv' /\ flips which shape p p' /\
  dilate_n true shape f ks kv n per = Ok a /\ dilate_n true shape f' ks kv' n per = Ok b /\ zn a p <> 0 /\ zn b p' = 0.
Proof.
  exists [3], [0;1;0], [0;1;0], [2], [1;1], [1;1], 1, false, [true], [0;1;1], [0;1;1], 2, 0.
  assert (D : dilatable_n false [3] [0;1;0] [2] [1;1]).
  { unfold dilatable_n, image, kernel. cbn [length]. split; [lia|]. split; [split; [repeat constructor; lia|reflexivity]|]. split; [reflexivity|].
    split; [split; [repeat constructor; lia|reflexivity]|]. split; [cbn; intros; lia|]. split; [discriminate|]. cbn. intros; lia. }
  split; [exact D|]. split; [exact D|]. split; [reflexivity|].
  assert (C : forall m p q, flips [true] [m] p q -> 0 <= p < m /\ q = m - 1 - p).
  { intros m p q (P & Q & F). unfold pixel in *. cbn in P, Q, F. rewrite !Z.div_1_r in F. lia. }
  split. { intros p q H. apply C in H. destruct H as [H ->]. assert (E : p = 0 \/ p = 1 \/ p = 2) by lia. destruct E as [->|[->| ->]]; reflexivity. }
  split. { intros p q H. apply C in H. destruct H as [H ->]. assert (E : p = 0 \/ p = 1) by lia. destruct E as [->| ->]; reflexivity. }
  split. { unfold flips, pixel. cbn. lia. }
  split; [vm_compute; reflexivity|]. split; [vm_compute; reflexivity|]. vm_compute. split; [discriminate|reflexivity].
Qed.
