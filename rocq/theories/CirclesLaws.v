(** * CirclesLaws: laws of drawings of circles, and their clusters (proofs only). *)

From Coq Require Import ZArith List Bool Lia Permutation.
From Verif Require Import Base BaseLemmas Cluster SpecCluster SpecSymmetry ClusterGeom ClusterTop Circles SpecCircles SpecCirclesLaws CirclesProofs.
Import ListNotations.
Open Scope Z_scope.

Definition lit (per : bool) (n m : Z) (l : list ring) (p : Z) : Prop := exists c, In c l /\ covers per n m c p.

Definition at_ (per : bool) (n u w : Z) : Prop := if per then u = w mod n else u = w.

Lemma covers_iff : forall per n m c p, covers per n m c p <->
  exists a b, within (g_rad c) a b /\ at_ per n (p / m) (g_row c + a) /\ at_ per m (p mod m) (g_col c + b).
Proof.
  intros. unfold covers, at_. rewrite coords2. cbn [moved]. destruct per; split; intros (a & b & W & H); exists a, b; tauto.
Qed.

Lemma at_dec : forall per n u w, at_ per n u w \/ ~ at_ per n u w.
Proof. intros. unfold at_. destruct per; lia. Qed.

Lemma covers_dec : forall per n m c p, covers per n m c p \/ ~ covers per n m c p.
Proof.
  intros per n m c p.
  destruct (exists_dec (disc (g_rad c)) (fun d => at_ per n (p / m) (g_row c + fst d) /\ at_ per m (p mod m) (g_col c + snd d))) as [H|H].
  - intros d. destruct (at_dec per n (p / m) (g_row c + fst d)), (at_dec per m (p mod m) (g_col c + snd d)); tauto.
  - left. apply covers_iff. destruct H as ((a & b) & Hd & H). apply disc_In in Hd. exists a, b. auto.
  - right. intros C. apply H. apply covers_iff in C. destruct C as (a & b & W & C). exists (a, b). split; [apply disc_In; auto|auto].
Qed.

Lemma lit_dec : forall per n m l p, lit per n m l p \/ ~ lit per n m l p.
Proof. intros. apply exists_dec. intros. apply covers_dec. Qed.

Lemma zn_map : forall {A} (f : A -> Z) l i d, 0 <= i < lenZ l -> zn (map f l) i = f (nth (Z.to_nat i) l d).
Proof.
  intros A f l i d H. unfold zn, lenZ in *. rewrite (nth_indep _ 0 (f d)) by (rewrite map_length; lia). apply map_nth.
Qed.

Lemma covered_lit : forall per n m l p,
  covered per n m (map g_row l) (map g_col l) (map g_rad l) (p / m) (p mod m) <-> lit per n m l p.
Proof.
  intros per n m l p. unfold covered, lit, covers, circle. rewrite coords2. split.
  - intros (i & x & y & rad & a & b & (Hi & -> & -> & ->) & W & M). unfold lenZ in Hi. rewrite map_length in Hi.
    rewrite !(zn_map _ l i (mkring 0 0 0)) in * by (unfold lenZ; lia).
    exists (nth (Z.to_nat i) l (mkring 0 0 0)). split; [apply nth_In; lia|]. exists a, b. auto.
  - intros (c & Hc & a & b & W & M). apply (In_nth _ _ (mkring 0 0 0)) in Hc. destruct Hc as (i & Hi & <-).
    exists (Z.of_nat i), (g_row (nth i l (mkring 0 0 0))), (g_col (nth i l (mkring 0 0 0))), (g_rad (nth i l (mkring 0 0 0))), a, b.
    rewrite !(zn_map _ l _ (mkring 0 0 0)) by (unfold lenZ; lia). rewrite Nat2Z.id. unfold lenZ. rewrite map_length.
    split; [split; [lia|auto]|split; auto].
Qed.

Lemma pixel2 : forall n m p, pixel [n; m] p <-> 0 <= p < n * m.
Proof. intros. unfold pixel. cbn [zprod]. rewrite Z.mul_1_r. tauto. Qed.

Lemma drawn_ok : forall asrt per n m l, drawable per n m ->
  exists out, drawn asrt per n m l = Ok out /\ lenZ out = n * m /\
    forall p, pixel [n; m] p -> (zn out p = 1 /\ lit per n m l p) \/ (zn out p = 0 /\ ~ lit per n m l p).
Proof.
  intros asrt per n m l (Hn & Hm & HP). unfold drawn.
  destruct (circles_ok asrt n m (map g_row l) (map g_col l) (map g_rad l) per) as (out & E & L & I); auto;
    try (unfold lenZ; rewrite !map_length; reflexivity).
  exists out. split; auto. split; auto. intros p Hp. destruct (I p Hp) as [I1 I2]. rewrite covered_lit in I1, I2.
  destruct (lit_dec per n m l p); [left|right]; auto.
Qed.

Lemma zn_ext : forall n m (a b : list Z), lenZ a = n * m -> lenZ b = n * m ->
  (forall p, pixel [n; m] p -> zn a p = zn b p) -> a = b.
Proof.
  intros n m a b La Lb H. apply nth_ext with 0 0; [unfold lenZ in *; lia|]. intros i Hi.
  specialize (H (Z.of_nat i)). unfold zn in H. rewrite Nat2Z.id in H. apply H. rewrite pixel2. unfold lenZ in La. lia.
Qed.

Lemma drawn_same : forall asrt per per' n m l l', drawable per n m -> drawable per' n m ->
  (forall p, pixel [n; m] p -> (lit per n m l p <-> lit per' n m l' p)) -> drawn asrt per n m l = drawn asrt per' n m l'.
Proof.
  intros asrt per per' n m l l' D D' H. destruct (drawn_ok asrt per n m l D) as (a & Ea & La & Ia).
  destruct (drawn_ok asrt per' n m l' D') as (b & Eb & Lb & Ib). rewrite Ea, Eb. f_equal. apply zn_ext with n m; auto.
  intros p Hp. specialize (H p Hp). destruct (Ia p Hp) as [[-> ?]|[-> ?]], (Ib p Hp) as [[-> ?]|[-> ?]]; tauto.
Qed.

Lemma drawn_le : forall asrt per per' n m l l', drawable per n m -> drawable per' n m ->
  (forall p, pixel [n; m] p -> lit per n m l p -> lit per' n m l' p) ->
  exists out out', drawn asrt per n m l = Ok out /\ drawn asrt per' n m l' = Ok out' /\
    forall p, pixel [n; m] p -> zn out p <= zn out' p.
Proof.
  intros asrt per per' n m l l' D D' H. destruct (drawn_ok asrt per n m l D) as (a & Ea & La & Ia).
  destruct (drawn_ok asrt per' n m l' D') as (b & Eb & Lb & Ib). exists a, b. split; auto. split; auto.
  intros p Hp. specialize (H p Hp). destruct (Ia p Hp) as [[-> ?]|[-> ?]], (Ib p Hp) as [[-> ?]|[-> ?]]; try lia. tauto.
Qed.

(** ** Sets of circles *)

Lemma drawn_set : forall asrt per n m l l', drawable per n m -> (forall c, In c l <-> In c l') ->
  drawn asrt per n m l = drawn asrt per n m l'.
Proof.
  intros asrt per n m l l' D H. apply drawn_same; auto. intros p _. unfold lit. split; intros (c & Hc & C); exists c; (split; [apply H; auto|auto]).
Qed.

Lemma drawn_larger : forall asrt per n m l l', drawable per n m ->
  (forall c, In c l -> exists c', In c' l' /\ larger c c') ->
  exists out out', drawn asrt per n m l = Ok out /\ drawn asrt per n m l' = Ok out' /\
    forall p, pixel [n; m] p -> zn out p <= zn out' p.
Proof.
  intros asrt per n m l l' D H. apply drawn_le; auto. intros p _ (c & Hc & a & b & [W1 W2] & M).
  destruct (H c Hc) as (c' & Hc' & E1 & E2 & E3). exists c'. split; auto. exists a, b. rewrite E1, E2. split; auto.
  split; [lia|]. nia.
Qed.

Lemma drawn_union : forall asrt per n m l l', drawable per n m ->
  exists a b out, drawn asrt per n m l = Ok a /\ drawn asrt per n m l' = Ok b /\ drawn asrt per n m (l ++ l') = Ok out /\
    forall p, pixel [n; m] p -> zn out p = Z.max (zn a p) (zn b p).
Proof.
  intros asrt per n m l l' D. destruct (drawn_ok asrt per n m l D) as (a & Ea & La & Ia).
  destruct (drawn_ok asrt per n m l' D) as (b & Eb & Lb & Ib). destruct (drawn_ok asrt per n m (l ++ l') D) as (c & Ec & Lc & Ic).
  exists a, b, c. do 3 (split; auto). intros p Hp.
  assert (U : lit per n m (l ++ l') p <-> lit per n m l p \/ lit per n m l' p).
  { unfold lit. split.
    - intros (x & Hx & C). apply in_app_iff in Hx. destruct Hx; [left|right]; eauto.
    - intros [(x & Hx & C)|(x & Hx & C)]; exists x; (split; [apply in_app_iff; auto|auto]). }
  destruct (Ia p Hp) as [[-> ?]|[-> ?]], (Ib p Hp) as [[-> ?]|[-> ?]], (Ic p Hp) as [[-> ?]|[-> ?]]; try reflexivity; tauto.
Qed.

(** ** Periodic images *)

Lemma drawn_wrapped : forall asrt n m l l', drawable true n m -> Forall2 (same_ring n m) l l' ->
  drawn asrt true n m l = drawn asrt true n m l'.
Proof.
  intros asrt n m l l' D H. apply drawn_same; auto. destruct D as (_ & _ & D). destruct (D eq_refl) as [Hn Hm].
  assert (G : forall c c' p, same_ring n m c c' -> covers true n m c p -> covers true n m c' p).
  { intros c c' p (E1 & E2 & E3) C. apply covers_iff in C. apply covers_iff. destruct C as (a & b & W & A & B). exists a, b.
    rewrite E3. split; auto. unfold at_ in *. rewrite A, B. split.
    - rewrite <- (Zplus_mod_idemp_l (g_row c')), E1, Zplus_mod_idemp_l. reflexivity.
    - rewrite <- (Zplus_mod_idemp_l (g_col c')), E2, Zplus_mod_idemp_l. reflexivity. }
  assert (S : forall c c', same_ring n m c c' -> same_ring n m c' c) by (intros c c' (? & ? & ?); split; auto; split; auto).
  intros p _. unfold lit. split; intros (c & Hc & C).
  - induction H as [|x x' l l' Hx H IH]; [destruct Hc|]. destruct Hc as [->|Hc]; [exists x'; split; [simpl; auto|eauto]|].
    destruct (IH Hc) as (y & Hy & Cy). exists y. split; [simpl; auto|auto].
  - induction H as [|x x' l l' Hx H IH]; [destruct Hc|]. destruct Hc as [->|Hc]; [exists x; split; [simpl; auto|eauto]|].
    destruct (IH Hc) as (y & Hy & Cy). exists y. split; [simpl; auto|auto].
Qed.

Lemma drawn_periodic_more : forall asrt n m l, 0 < n -> 0 < m ->
  exists out out', drawn asrt false n m l = Ok out /\ drawn asrt true n m l = Ok out' /\
    forall p, pixel [n; m] p -> zn out p <= zn out' p.
Proof.
  intros asrt n m l Hn Hm. apply drawn_le; [split; [lia|split; [lia|discriminate]]|split; [lia|split; [lia|auto]]|].
  intros p Hp (c & Hc & C). exists c. split; auto. apply covers_iff in C. apply covers_iff. destruct C as (a & b & W & A & B).
  exists a, b. split; auto. unfold at_ in *. rewrite <- A, <- B. apply (proj1 (pixel2 _ _ _)) in Hp.
  rewrite (Z.mod_small (p / m)) by (split; [apply Z.div_pos; lia|apply Z.div_lt_upper_bound; nia]).
  rewrite (Z.mod_small (p mod m)) by (apply Z.mod_pos_bound; lia). auto.
Qed.

Lemma within_abs : forall r a b, within r a b -> - (r - 1) <= a <= r - 1 /\ - (r - 1) <= b <= r - 1.
Proof. intros r a b [H1 H2]. set (k := r - 1) in *. assert (0 <= k) by lia. clearbody k. split; split; nia. Qed.

Lemma drawn_fits : forall asrt n m l, 0 < n -> 0 < m -> Forall (fits n m) l ->
  drawn asrt true n m l = drawn asrt false n m l.
Proof.
  intros asrt n m l Hn Hm F. rewrite Forall_forall in F.
  apply drawn_same; [split; [lia|split; [lia|auto]]|split; [lia|split; [lia|discriminate]]|].
  intros p Hp. apply (proj1 (pixel2 _ _ _)) in Hp. unfold lit. split; intros (c & Hc & C); exists c; (split; [auto|]);
    apply covers_iff in C; apply covers_iff; destruct C as (a & b & W & A & B); exists a, b; (split; [auto|]);
    destruct (F c Hc) as [F1 F2]; destruct (within_abs _ _ _ W) as [W1 W2]; unfold at_ in *.
  - rewrite Z.mod_small in A by lia. rewrite (Z.mod_small (g_col c + b)) in B by lia. auto.
  - rewrite (Z.mod_small (g_row c + a)), (Z.mod_small (g_col c + b)) by lia. auto.
Qed.

(** ** Moving, flipping, transposing *)

Lemma nth_error_zn : forall (a : list Z) p, 0 <= p < lenZ a -> nth_error a (Z.to_nat p) = Some (zn a p).
Proof. intros a p H. unfold zn. apply nth_error_nth'. unfold lenZ in H. lia. Qed.

Lemma drawn_carried : forall asrt per n m n' m' l l' (T : Z -> Z -> Prop), drawable per n m -> drawable per n' m' ->
  (forall p q, T p q -> pixel [n; m] p /\ pixel [n'; m'] q) ->
  (forall p q, T p q -> (lit per n m l p <-> lit per n' m' l' q)) ->
  exists out out', drawn asrt per n m l = Ok out /\ drawn asrt per n' m' l' = Ok out' /\ carried T out out'.
Proof.
  intros asrt per n m n' m' l l' T D D' HT H. destruct (drawn_ok asrt per n m l D) as (a & Ea & La & Ia).
  destruct (drawn_ok asrt per n' m' l' D') as (b & Eb & Lb & Ib). exists a, b. split; auto. split; auto.
  intros p q Hpq. destruct (HT p q Hpq) as [Hp Hq]. specialize (H p q Hpq).
  rewrite !nth_error_zn by (rewrite ?La, ?Lb; apply (proj1 (pixel2 _ _ _)); auto).
  f_equal. destruct (Ia p Hp) as [[-> ?]|[-> ?]], (Ib q Hq) as [[-> ?]|[-> ?]]; tauto.
Qed.

Lemma lit_map : forall per n m l (f : ring -> ring) p, lit per n m (map f l) p <-> exists c, In c l /\ covers per n m (f c) p.
Proof.
  intros. unfold lit. split.
  - intros (c & Hc & C). apply in_map_iff in Hc. destruct Hc as (x & <- & Hx). eauto.
  - intros (c & Hc & C). exists (f c). split; [apply in_map; auto|auto].
Qed.

Lemma quot_bound : forall n m p, 0 < m -> 0 <= p < n * m -> 0 <= p / m < n /\ 0 <= p mod m < m.
Proof.
  intros n m p Hm H. split; [split; [apply Z.div_pos; lia|apply Z.div_lt_upper_bound; nia]|apply Z.mod_pos_bound; lia].
Qed.

Lemma mod_cancel : forall n u s w, 0 < n -> 0 <= u < n -> ((u + s) mod n = (w + s) mod n <-> u = w mod n).
Proof.
  intros n u s w Hn Hu. split.
  - intros E. pose proof (Z.div_mod (u + s) n ltac:(lia)) as D1. pose proof (Z.div_mod (w + s) n ltac:(lia)) as D2.
    apply Z.mod_unique with (q := (w + s) / n - (u + s) / n); [lia|]. rewrite E in D1. nia.
  - intros ->. rewrite Zplus_mod_idemp_l. reflexivity.
Qed.

Lemma drawn_rolled : forall asrt n m s t l, 0 < n -> 0 < m ->
  exists out out', drawn asrt true n m l = Ok out /\ drawn asrt true n m (map (move_ring s t) l) = Ok out' /\
    carried (rolls [s; t] [n; m]) out out'.
Proof.
  intros asrt n m s t l Hn Hm. apply drawn_carried; try (split; [lia|split; [lia|auto]]).
  - intros p q (Hp & Hq & _). auto.
  - intros p q (Hp & Hq & M). rewrite !coords2 in M. cbn [moved] in M. destruct M as (M1 & M2 & _).
    rewrite lit_map. unfold lit. apply (proj1 (pixel2 _ _ _)) in Hp. apply (quot_bound _ _ _ Hm) in Hp.
    assert (G : forall c, covers true n m c p <-> covers true n m (move_ring s t c) q).
    { intros c. rewrite !covers_iff. cbn [move_ring g_row g_col g_rad at_]. rewrite M1, M2.
      split; intros (a & b & W & A & B); exists a, b; (split; [auto|]).
      - replace (g_row c + s + a) with (g_row c + a + s) by lia. replace (g_col c + t + b) with (g_col c + b + t) by lia.
        split; apply mod_cancel; auto; lia.
      - replace (g_row c + s + a) with (g_row c + a + s) in A by lia. replace (g_col c + t + b) with (g_col c + b + t) in B by lia.
        split; [apply (mod_cancel n _ s)|apply (mod_cancel m _ t)]; auto; lia. }
    split; intros (c & Hc & C); exists c; (split; [auto|apply G; auto]).
Qed.

Lemma within_flip : forall f0 f1 r a b, within r a b -> within r (if f0 : bool then - a else a) (if f1 : bool then - b else b).
Proof. intros f0 f1 r a b [H1 H2]. split; auto. destruct f0, f1; lia. Qed.

Lemma at_flip : forall per n (f : bool) u x a, (per = true -> 0 < n) -> at_ per n u (x + a) ->
  at_ per n (if f then n - 1 - u else u) ((if f then n - 1 - x else x) + (if f then - a else a)).
Proof.
  intros per n f u x a Hn H. destruct f; [|auto]. unfold at_ in *. destruct per; [|lia]. rewrite H. specialize (Hn eq_refl).
  pose proof (Z.div_mod (x + a) n ltac:(lia)) as D. pose proof (Z.mod_pos_bound (x + a) n ltac:(lia)) as B.
  apply Z.mod_unique with (q := - ((x + a) / n)); [lia|]. lia.
Qed.

Lemma drawn_flipped : forall asrt per n m f0 f1 l, drawable per n m ->
  exists out out', drawn asrt per n m l = Ok out /\ drawn asrt per n m (map (flip_ring f0 f1 n m) l) = Ok out' /\
    carried (flips [f0; f1] [n; m]) out out'.
Proof.
  intros asrt per n m f0 f1 l D. apply drawn_carried; auto.
  - intros p q (Hp & Hq & _). auto.
  - intros p q (Hp & Hq & M). rewrite !coords2 in M. cbn [flipped] in M. destruct M as (M1 & M2 & _).
    rewrite lit_map. unfold lit. destruct D as (_ & _ & D).
    assert (G : forall c, covers per n m c p <-> covers per n m (flip_ring f0 f1 n m c) q).
    { intros c. rewrite !covers_iff. cbn [flip_ring g_row g_col g_rad]. split; intros (a & b & W & A & B).
      - exists (if f0 then - a else a), (if f1 then - b else b). split; [apply within_flip; auto|].
        rewrite M1, M2. split; apply at_flip; auto; apply D.
      - exists (if f0 then - a else a), (if f1 then - b else b). split; [apply within_flip; auto|].
        apply (at_flip per n f0) in A; [|apply D]. apply (at_flip per m f1) in B; [|apply D]. rewrite M1 in A. rewrite M2 in B.
        split.
        + destruct f0; [|auto]. replace (n - 1 - (n - 1 - p / m)) with (p / m) in A by lia.
          replace (n - 1 - (n - 1 - g_row c)) with (g_row c) in A by lia. auto.
        + destruct f1; [|auto]. replace (m - 1 - (m - 1 - p mod m)) with (p mod m) in B by lia.
          replace (m - 1 - (m - 1 - g_col c)) with (g_col c) in B by lia. auto. }
    split; intros (c & Hc & C); exists c; (split; [auto|apply G; auto]).
Qed.

Lemma drawn_transposed : forall asrt per n m l, drawable per n m ->
  exists out out', drawn asrt per n m l = Ok out /\ drawn asrt per m n (map swap_ring l) = Ok out' /\
    carried (transposes [n; m]) out out'.
Proof.
  intros asrt per n m l D. assert (D' : drawable per m n) by (destruct D as (? & ? & D); split; auto; split; auto; tauto).
  apply drawn_carried; auto.
  - intros p q (Hp & Hq & _). auto.
  - intros p q (Hp & Hq & M). change (rev [n; m]) with [m; n] in M. rewrite !coords2 in M. cbn [rev app] in M. injection M as M1 M2.
    rewrite lit_map. unfold lit.
    assert (G : forall c, covers per n m c p <-> covers per m n (swap_ring c) q).
    { intros c. rewrite !covers_iff. cbn [swap_ring g_row g_col g_rad]. rewrite M1, M2.
      split; intros (a & b & (W1 & W2) & A & B); exists b, a; (split; [split; [auto|lia]|auto]). }
    split; intros (c & Hc & C); exists c; (split; [auto|apply G; auto]).
Qed.

(** ** Clusters of circles *)

Section Clustered.
Variables (per : bool) (n m : Z) (img lab : list Z).
Hypothesis Hn : 0 < n.
Hypothesis Hm : 0 < m.
Hypothesis HL : forall p q, pixel [n; m] p -> pixel [n; m] q -> zn img p <> 0 -> zn img q <> 0 ->
  (zn lab p = zn lab q <->
   linked (face_neighbour per [n; m]) (fun x => pixel [n; m] x /\ zn img x <> 0) p q).

Definition pix (u v : Z) : Z := u * m + v.

Lemma pix_ok : forall u v, 0 <= u < n -> 0 <= v < m -> pixel [n; m] (pix u v) /\ pix u v / m = u /\ pix u v mod m = v.
Proof.
  intros u v Hu Hv. unfold pix. destruct (split_index u v m Hv) as [E1 E2]. split; [|auto]. apply pixel2. nia.
Qed.

Lemma pix_of : forall p, pixel [n; m] p -> exists u v, 0 <= u < n /\ 0 <= v < m /\ p = pix u v.
Proof.
  intros p Hp. apply (proj1 (pixel2 _ _ _)) in Hp. exists (p / m), (p mod m). destruct (quot_bound n m p Hm Hp). split; auto. split; auto.
  unfold pix. rewrite Z.mul_comm. apply Z.div_mod. lia.
Qed.

Lemma one_step : forall u v u' v', 0 <= u < n -> 0 <= v < m -> 0 <= u' < n -> 0 <= v' < m ->
  face per [n; m] [u; v] [u'; v'] -> zn img (pix u v) <> 0 -> zn img (pix u' v') <> 0 -> zn lab (pix u v) = zn lab (pix u' v').
Proof.
  intros u v u' v' Hu Hv Hu' Hv' F I I'. destruct (pix_ok u v Hu Hv) as (P & E1 & E2). destruct (pix_ok u' v' Hu' Hv') as (P' & E1' & E2').
  apply (proj2 (HL _ _ P P' I I')). apply linked_step with (pix u' v'); auto; [|apply linked_refl; auto].
  split; auto. split; auto. rewrite !coords2, E1, E2, E1', E2'. exact F.
Qed.

(** Not periodic: towards the pixel nearest to the centre. *)
Definition clamp (k x : Z) : Z := Z.max 0 (Z.min x (k - 1)).

Lemma clamp_in : forall k x, 0 < k -> 0 <= clamp k x < k.
Proof. intros. unfold clamp. lia. Qed.

Lemma step_row : forall c u v, per = false -> 0 <= u < n -> 0 <= v < m -> covers per n m c (pix u v) -> u <> clamp n (g_row c) ->
  exists u', 0 <= u' < n /\ Z.abs (u' - clamp n (g_row c)) < Z.abs (u - clamp n (g_row c)) /\
    covers per n m c (pix u' v) /\ face per [n; m] [u; v] [u'; v].
Proof.
  intros c u v EP Hu Hv C N. rewrite EP in *. pose proof (clamp_in n (g_row c) Hn) as B.
  exists (u + Z.sgn (clamp n (g_row c) - u)). apply covers_iff in C. destruct C as (a & b & (W1 & W2) & A1 & A2).
  unfold at_ in A1, A2. destruct (pix_ok u v Hu Hv) as (_ & E1 & E2). rewrite E1 in A1. rewrite E2 in A2.
  assert (SG : (clamp n (g_row c) < u /\ Z.sgn (clamp n (g_row c) - u) = -1) \/ (u < clamp n (g_row c) /\ Z.sgn (clamp n (g_row c) - u) = 1)).
  { destruct (Z.lt_trichotomy u (clamp n (g_row c))) as [L|[L|L]]; [right|contradiction|left]; (split; [auto|]).
    - apply Z.sgn_pos. lia.
    - apply Z.sgn_neg. lia. }
  assert (Hu' : 0 <= u + Z.sgn (clamp n (g_row c) - u) < n) by lia.
  split; auto. split; [lia|]. split.
  - apply covers_iff. exists (a + Z.sgn (clamp n (g_row c) - u)), b. destruct (pix_ok _ v Hu' Hv) as (_ & F1 & F2). rewrite F1, F2.
    unfold at_. split; [|split; [lia|auto]]. split; auto. unfold clamp in *. destruct SG as [[L ->]|[L ->]]; nia.
  - cbn [face]. right. split; [|reflexivity]. lia.
Qed.

Lemma step_col : forall c u v, per = false -> 0 <= u < n -> 0 <= v < m -> covers per n m c (pix u v) -> v <> clamp m (g_col c) ->
  exists v', 0 <= v' < m /\ Z.abs (v' - clamp m (g_col c)) < Z.abs (v - clamp m (g_col c)) /\
    covers per n m c (pix u v') /\ face per [n; m] [u; v] [u; v'].
Proof.
  intros c u v EP Hu Hv C N. rewrite EP in *. pose proof (clamp_in m (g_col c) Hm) as B.
  exists (v + Z.sgn (clamp m (g_col c) - v)). apply covers_iff in C. destruct C as (a & b & (W1 & W2) & A1 & A2).
  unfold at_ in A1, A2. destruct (pix_ok u v Hu Hv) as (_ & E1 & E2). rewrite E1 in A1. rewrite E2 in A2.
  assert (SG : (clamp m (g_col c) < v /\ Z.sgn (clamp m (g_col c) - v) = -1) \/ (v < clamp m (g_col c) /\ Z.sgn (clamp m (g_col c) - v) = 1)).
  { destruct (Z.lt_trichotomy v (clamp m (g_col c))) as [L|[L|L]]; [right|contradiction|left]; (split; [auto|]).
    - apply Z.sgn_pos. lia.
    - apply Z.sgn_neg. lia. }
  assert (Hv' : 0 <= v + Z.sgn (clamp m (g_col c) - v) < m) by lia.
  split; auto. split; [lia|]. split.
  - apply covers_iff. exists a, (b + Z.sgn (clamp m (g_col c) - v)). destruct (pix_ok u _ Hu Hv') as (_ & F1 & F2). rewrite F1, F2.
    unfold at_. split; [|split; [auto|lia]]. split; auto. unfold clamp in *. destruct SG as [[L ->]|[L ->]]; nia.
  - cbn [face]. left. split; [reflexivity|]. right. split; [|reflexivity]. lia.
Qed.

Lemma to_clamp : forall c, per = false -> (forall p, pixel [n; m] p -> covers per n m c p -> zn img p <> 0) ->
  forall k u v, 0 <= u < n -> 0 <= v < m -> covers per n m c (pix u v) ->
  Z.abs (u - clamp n (g_row c)) + Z.abs (v - clamp m (g_col c)) <= Z.of_nat k ->
  zn lab (pix u v) = zn lab (pix (clamp n (g_row c)) (clamp m (g_col c))).
Proof.
  intros c EP HI. induction k as [|k IH]; intros u v Hu Hv C B.
  - assert (u = clamp n (g_row c)) by lia. assert (v = clamp m (g_col c)) by lia. congruence.
  - destruct (Z.eq_dec u (clamp n (g_row c))) as [Eu|Nu]; [destruct (Z.eq_dec v (clamp m (g_col c))) as [Ev|Nv]; [congruence|]|].
    + destruct (step_col c u v EP Hu Hv C Nv) as (v' & Hv' & L & C' & F). rewrite <- (IH u v' Hu Hv' C') by lia.
      apply one_step; auto; apply HI; auto; apply pix_ok; auto.
    + destruct (step_row c u v EP Hu Hv C Nu) as (u' & Hu' & L & C' & F). rewrite <- (IH u' v Hu' Hv C') by lia.
      apply one_step; auto; apply HI; auto; apply pix_ok; auto.
Qed.

(** Periodic: towards the centre. *)
Lemma mod_step : forall k x s, 0 < k -> (s = 1 \/ s = -1) -> (x + s) mod k = (x mod k + 1) mod k \/ (x + s) mod k = (x mod k - 1) mod k.
Proof.
  intros k x s Hk [-> | ->]; [left|right].
  - rewrite Zplus_mod_idemp_l. reflexivity.
  - rewrite Zminus_mod_idemp_l. reflexivity.
Qed.

Lemma to_centre : forall c, per = true -> (forall p, pixel [n; m] p -> covers per n m c p -> zn img p <> 0) ->
  forall k a b, within (g_rad c) a b -> Z.abs a + Z.abs b <= Z.of_nat k ->
  zn lab (pix ((g_row c + a) mod n) ((g_col c + b) mod m)) = zn lab (pix (g_row c mod n) (g_col c mod m)).
Proof.
  intros c EP HI.
  assert (MN : forall x, 0 <= x mod n < n) by (intros; apply Z.mod_pos_bound; auto).
  assert (MM : forall x, 0 <= x mod m < m) by (intros; apply Z.mod_pos_bound; auto).
  assert (HC : forall a b, within (g_rad c) a b -> zn img (pix ((g_row c + a) mod n) ((g_col c + b) mod m)) <> 0).
  { intros a b W. destruct (pix_ok _ _ (MN (g_row c + a)) (MM (g_col c + b))) as (P & E1 & E2). apply HI; auto.
    apply covers_iff. exists a, b. rewrite E1, E2, EP. split; auto. split; reflexivity. }
  induction k as [|k IH]; intros a b W B.
  - assert (a = 0) by lia. assert (b = 0) by lia. subst. rewrite !Z.add_0_r. reflexivity.
  - destruct (Z.eq_dec a 0) as [->|Na]; [destruct (Z.eq_dec b 0) as [->|Nb]; [rewrite !Z.add_0_r; reflexivity|]|].
    + assert (S : Z.sgn b = 1 /\ 0 < b \/ Z.sgn b = -1 /\ b < 0).
      { destruct (Z.lt_trichotomy b 0) as [L|[L|L]]; [right|contradiction|left]; (split; [|auto]); [apply Z.sgn_neg|apply Z.sgn_pos]; auto. }
      assert (W' : within (g_rad c) 0 (b - Z.sgn b)) by (destruct W; split; auto; nia).
      rewrite <- (IH 0 (b - Z.sgn b) W') by lia. apply one_step; auto. rewrite EP. cbn [face]. left. split; [reflexivity|]. right. split; [|reflexivity].
      replace (g_col c + (b - Z.sgn b)) with (g_col c + b + - Z.sgn b) by lia. apply mod_step; auto. lia.
    + assert (S : Z.sgn a = 1 /\ 0 < a \/ Z.sgn a = -1 /\ a < 0).
      { destruct (Z.lt_trichotomy a 0) as [L|[L|L]]; [right|contradiction|left]; (split; [|auto]); [apply Z.sgn_neg|apply Z.sgn_pos]; auto. }
      assert (W' : within (g_rad c) (a - Z.sgn a) b) by (destruct W; split; auto; nia).
      rewrite <- (IH (a - Z.sgn a) b W') by lia. apply one_step; auto. rewrite EP. cbn [face]. right. split; [|reflexivity].
      replace (g_row c + (a - Z.sgn a)) with (g_row c + a + - Z.sgn a) by lia. apply mod_step; auto. lia.
Qed.

Lemma one_circle : forall c, (forall p, pixel [n; m] p -> covers per n m c p -> zn img p <> 0) ->
  forall p q, pixel [n; m] p -> pixel [n; m] q -> covers per n m c p -> covers per n m c q -> zn lab p = zn lab q.
Proof.
  intros c HI p q Hp Hq Cp Cq. destruct (Sumbool.sumbool_of_bool per) as [EP|EP].
  - assert (G : forall p, pixel [n; m] p -> covers per n m c p -> zn lab p = zn lab (pix (g_row c mod n) (g_col c mod m))).
    { clear p q Hp Hq Cp Cq. intros p Hp C. destruct (pix_of p Hp) as (u & v & Hu & Hv & ->). apply covers_iff in C.
      destruct C as (a & b & W & A & B). destruct (pix_ok u v Hu Hv) as (_ & E1 & E2). rewrite E1 in A. rewrite E2 in B.
      rewrite EP in A, B. cbn [at_] in A, B. rewrite A, B. apply (to_centre c EP HI (Z.to_nat (Z.abs a + Z.abs b))); auto. lia. }
    rewrite (G p), (G q); auto.
  - assert (G : forall p, pixel [n; m] p -> covers per n m c p -> zn lab p = zn lab (pix (clamp n (g_row c)) (clamp m (g_col c)))).
    { clear p q Hp Hq Cp Cq. intros p Hp C. destruct (pix_of p Hp) as (u & v & Hu & Hv & ->).
      apply (to_clamp c EP HI (Z.to_nat (Z.abs (u - clamp n (g_row c)) + Z.abs (v - clamp m (g_col c))))); auto. lia. }
    rewrite (G p), (G q); auto.
Qed.
End Clustered.

Lemma chain_in : forall per n m l c c', chain per n m l c c' -> In c l /\ In c' l.
Proof. intros per n m l c c' H. induction H; tauto. Qed.

Lemma linked_start : forall adj A p q, linked adj A p q -> A p.
Proof. intros adj A p q H. destruct H; auto. Qed.

Lemma used_le : forall (lab : list Z) (cs : list Z), (forall v, In v lab -> v <> 0 -> In v cs) -> (nclusters lab <= length cs)%nat.
Proof.
  intros lab cs H. unfold nclusters. apply NoDup_incl_length.
  - apply NoDup_filter. apply NoDup_nodup.
  - intros v Hv. apply filter_In in Hv. destruct Hv as [Hv Nv]. apply nodup_In in Hv. apply H; auto.
    rewrite negb_true_iff, Z.eqb_neq in Nv. auto.
Qed.

Lemma clusters_of_circles : forall asrt per n m l, 0 < n -> 0 < m -> n * m < big ->
  exists img lab, drawn asrt per n m l = Ok img /\ clusters asrt [n; m] img per = Ok lab /\
    (forall p, pixel [n; m] p -> (zn lab p <> 0 <-> exists c, In c l /\ covers per n m c p)) /\
    (forall c c' p q, In c l -> In c' l -> pixel [n; m] p -> pixel [n; m] q -> covers per n m c p -> covers per n m c' q ->
       (zn lab p = zn lab q <-> chain per n m l c c')) /\
    Z.of_nat (nclusters lab) <= lenZ l.
Proof.
  intros asrt per n m l Hn Hm HB.
  assert (D : drawable per n m) by (split; [lia|split; [lia|auto]]).
  destruct (drawn_ok asrt per n m l D) as (img & E & L & I).
  assert (GS : good_shape [n; m]).
  { split; [discriminate|]. split; [constructor; [lia|constructor; [lia|constructor]]|]. cbn [zprod]. lia. }
  destruct (clusters_ok asrt [n; m] img per GS) as (lab & EL & LL & Z0 & HL & _); [cbn; lia|cbn [zprod]; lia|].
  exists img, lab. split; auto. split; auto.
  assert (FG : forall p, pixel [n; m] p -> (zn img p <> 0 <-> lit per n m l p)).
  { intros p Hp. destruct (I p Hp) as [[-> ?]|[-> ?]]; [split; [auto|lia]|split; [lia|tauto]]. }
  assert (FL : forall p, pixel [n; m] p -> (zn lab p <> 0 <-> lit per n m l p)).
  { intros p Hp. rewrite <- (FG p Hp), (Z0 p Hp). tauto. }
  assert (HI : forall c, In c l -> forall p, pixel [n; m] p -> covers per n m c p -> zn img p <> 0).
  { intros c Hc p Hp C. apply (FG p Hp). exists c. auto. }
  assert (ONE : forall c, In c l -> forall p q, pixel [n; m] p -> pixel [n; m] q -> covers per n m c p -> covers per n m c q -> zn lab p = zn lab q).
  { intros c Hc. apply (one_circle per n m img lab Hn Hm HL c (HI c Hc)). }
  split; [exact FL|]. split.
  - intros c c' p q Hc Hc' Hp Hq Cp Cq. split.
    + intros E1. apply (HL p q Hp Hq (HI c Hc p Hp Cp) (HI c' Hc' q Hq Cq)) in E1.
      revert c Hc Cp. clear Hp. induction E1 as [p [Hp Ip]|p x r [Hp Ip] Hadj Hl IH]; intros c Hc Cp.
      * apply chain_step with c'; auto; [|apply chain_end; auto]. exists p, p. repeat (split; auto).
      * pose proof (linked_start _ _ _ _ Hl) as [Hx Ix]. apply (FG x Hx) in Ix. destruct Ix as (c1 & Hc1 & C1).
        apply chain_step with c1; auto. exists p, x. repeat (split; auto).
    + intros H. revert p Hp Cp. induction H as [c H0|c c1 c' Hc0 T H IH]; intros p Hp Cp; [apply (ONE c); auto|].
      destruct T as (x & y & Hx & Hy & Cx & Cy & T). destruct (chain_in _ _ _ _ _ _ H) as [H1 _].
      rewrite (ONE c Hc p x) by auto. rewrite <- (IH H1 Hc' Cq y Hy Cy).
      destruct T as [->|T]; [reflexivity|]. apply (HL x y Hx Hy); [apply (HI c); auto|apply (HI c1); auto|].
      apply linked_step with y; [split; [auto|apply (HI c); auto]|auto|]. apply linked_refl. split; [auto|apply (HI c1); auto].
  - (* one label per circle *)
    assert (CH : exists f : list Z, length f = length l /\ forall c p, In c l -> pixel [n; m] p -> covers per n m c p -> In (zn lab p) f).
    { clear -ONE. induction l as [|c l IH].
      - exists []. split; [reflexivity|]. intros c p [].
      - destruct IH as (f & Lf & Hf); [intros; apply (ONE c0); simpl; auto|].
        destruct (exists_dec (zrange 0 (n * m)) (fun p => covers per n m c p)) as [(p0 & H0 & C0)|N]; [intros; apply covers_dec| |].
        + apply zrange_In in H0. exists (zn lab p0 :: f). split; [cbn; lia|]. intros c' p [<-|Hc'] Hp C.
          * left. apply (ONE c); simpl; auto. apply pixel2. auto.
          * right. eapply Hf; eauto.
        + exists (0 :: f). split; [cbn; lia|]. intros c' p [<-|Hc'] Hp C.
          * exfalso. apply N. exists p. split; auto. apply zrange_In. apply pixel2. auto.
          * right. eapply Hf; eauto. }
    destruct CH as (f & Lf & Hf). unfold lenZ. rewrite <- Lf. apply inj_le. apply used_le. intros v Hv Nv.
    apply (In_nth _ _ 0) in Hv. destruct Hv as (i & Hi & <-).
    assert (Hp : pixel [n; m] (Z.of_nat i)) by (apply pixel2; unfold lenZ in LL; cbn [zprod] in LL; lia).
    assert (EZ : nth i lab 0 = zn lab (Z.of_nat i)) by (unfold zn; rewrite Nat2Z.id; reflexivity).
    rewrite EZ in *. apply (FL _ Hp) in Nv. destruct Nv as (c & Hc & C). eapply Hf; eauto.
Qed.
